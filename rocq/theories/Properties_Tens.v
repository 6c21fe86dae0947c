(** C23, C24, C25: the tensor DSL and its lemmas. *)

From Coq Require Import String List ZArith Bool Lia.
From Verif Require Import Ast Semantics IrProofs5 SmtPrelude SmtProofs RktModel ListOps UtilModel ObjModel TensModel LibSem
  TensProofs AxProofs TensDemo TensDemo2.
Import ListNotations.
Local Open Scope string_scope.
Local Open Scope Z_scope.

(** ** specification *)

(** the backends: [true]: a model of the solver's prelude; [false]: the Racket library *)
Definition backend (e : bool) (I : interp) : Prop :=
  if e then exists S, smt_model S I else follows rkt_call I.

(** tenspiler_common.py:401-1092: the functions of the DSL with a definition (the
    ones on 3-tensors are left out: the prelude declares no 3-tensors) *)
Definition dsl_decls : list (res expr) :=
    [vec_elemwise_add; vec_elemwise_sub; vec_elemwise_mul; vec_elemwise_div;
     matrix_elemwise_add; matrix_elemwise_sub; matrix_elemwise_mul; matrix_elemwise_div;
     vec_scalar_add; vec_scalar_mul; vec_scalar_div; scalar_vec_div; vec_scalar_sub; scalar_vec_sub;
     matrix_scalar_add; matrix_scalar_mul; matrix_scalar_div; scalar_matrix_div; matrix_scalar_sub; scalar_matrix_sub;
     reduce_sum; reduce_mul; reduce_max; matrix_vec_mul;
     vec_map; selection_two_args; matrix_selection_two_args; dissolve_selection_two_args;
     dissolve_matrix_selection_two_args].
(** every one has the meaning of its definition *)
Definition dsl (I : interp) : Prop := forall d, In d dsl_decls -> defines I d.

(** which operation an elementwise function is meant to apply *)
Definition elementwise (I : interp) : list (string * (Z -> Z -> option Z)) :=
  [("elemwise_add", fun x y => Some (x + y)); ("elemwise_sub", fun x y => Some (x - y));
   ("elemwise_mul", fun x y => Some (x * y)); ("elemwise_div", fun x y => i_div I x y)].

(** which operation of the scalar [a] and an element [x] *)
Definition with_scalar (I : interp) (a : Z) : list (string * string * (Z -> option Z)) :=
  [("vec_scalar_add", "matrix_scalar_add", fun x => Some (x + a));
   ("vec_scalar_sub", "matrix_scalar_sub", fun x => Some (x - a));
   ("vec_scalar_mul", "matrix_scalar_mul", fun x => Some (x * a));
   ("vec_scalar_div", "matrix_scalar_div", fun x => i_div I x a);
   ("scalar_vec_sub", "scalar_matrix_sub", fun x => Some (a - x));
   ("scalar_vec_div", "scalar_matrix_div", fun x => i_div I a x)].

(** ** the demonstration *)
Definition demo_smt : interp := demo (smt_apply std) (fun a b => Some (smt_div std a b)).
Definition demo_rkt : interp := demo rkt_call (fun a b => if b =? 0 then Some 0 else Some (Z.quot a b)).

Lemma demo_smt_model : smt_model std demo_smt.
Proof. constructor; [apply std_core | apply demo_follows, smt_sorted | reflexivity]. Qed.
Lemma demo_smt_backend : backend true demo_smt.
Proof. exists std. apply demo_smt_model. Qed.
Lemma demo_rkt_backend : backend false demo_rkt.
Proof. apply demo_follows, rkt_sorted. Qed.

Lemma demo_dsl e ap dv : list_lib e (demo ap dv) -> dsl (demo ap dv).
Proof.
  intros L d H. unfold dsl_decls in H.
  change (In d (firstn 24 dsl_decls ++ skipn 24 dsl_decls)%list) in H. apply in_app_or in H as [H|H];
  cbn [firstn skipn dsl_decls] in H; [eapply def0; eauto | eapply def1; eauto].
Qed.
Lemma backend_lib e I : backend e I -> list_lib e I.
Proof. destruct e; [intros (S & M); eapply smt_list_lib; apply M | apply rkt_list_lib]. Qed.
Lemma demo_smt_dsl : dsl demo_smt.
Proof. apply (demo_dsl true), backend_lib, demo_smt_backend. Qed.
Lemma demo_rkt_dsl : dsl demo_rkt.
Proof. apply (demo_dsl false), backend_lib, demo_rkt_backend. Qed.

Ltac decl := cbn [In dsl_decls]; first [left; reflexivity | right; decl].

(** ** C23 *)

Theorem C23_vec_elemwise : forall e I f g, backend e I -> dsl I -> In (f, g) (elementwise I) ->
  forall l r, List.length l = List.length r ->
  i_call I ("vec_" ++ f) [vl l; vl r] = option_map vl (pointwise g l r).
Proof.
  intros e I f g B D H l r E. apply backend_lib in B. cbn [elementwise In] in H.
  destruct H as [[= <- <-]|[[= <- <-]|[[= <- <-]|[[= <- <-]|[]]]]].
  - exact (vec_elem_pointwise _ _ B "vec_elemwise_add" "matrix_elemwise_add" "tensor3d_elemwise_add" KAdd (or_introl eq_refl) (D vec_elemwise_add ltac:(decl)) l r E).
  - exact (vec_elem_pointwise _ _ B "vec_elemwise_sub" "matrix_elemwise_sub" "tensor3d_elemwise_sub" KSub (or_intror (or_introl eq_refl)) (D vec_elemwise_sub ltac:(decl)) l r E).
  - exact (vec_elem_pointwise _ _ B "vec_elemwise_mul" "matrix_elemwise_mul" "tensor3d_elemwise_mul" KMul (or_intror (or_intror (or_introl eq_refl))) (D vec_elemwise_mul ltac:(decl)) l r E).
  - exact (vec_elem_pointwise _ _ B "vec_elemwise_div" "matrix_elemwise_div" "tensor3d_elemwise_div" KDiv (or_intror (or_intror (or_intror eq_refl))) (D vec_elemwise_div ltac:(decl)) l r E).
Qed.
Print Assumptions C23_vec_elemwise.

Theorem C23_vec_scalar : forall e I f fm a g, backend e I -> dsl I -> In (f, fm, g) (with_scalar I a) ->
  forall l, i_call I f [VInt a; vl l] = option_map vl (mapO g l).
Proof.
  intros e I f fm a g B D H l. apply backend_lib in B. cbn [with_scalar In] in H.
  assert (X : forall g' : Z -> option Z, (forall x, g' x = g x) -> mapO g' l = mapO g l).
  { intros g' E. induction l as [|x l IH]; [reflexivity|]. cbn [mapO]. now rewrite E, IH. }
  destruct H as [[= <- <- <-]|[[= <- <- <-]|[[= <- <- <-]|[[= <- <- <-]|[[= <- <- <-]|[[= <- <- <-]|[]]]]]]].
  - rewrite (vec_scal_pointwise _ _ B "vec_scalar_add" "matrix_scalar_add" KAdd false (or_introl eq_refl) (D vec_scalar_add ltac:(decl))).
    f_equal. apply X. intros x. cbn. f_equal. lia.
  - rewrite (vec_scal_pointwise _ _ B "vec_scalar_sub" "matrix_scalar_sub" KSub true (or_intror (or_introl eq_refl)) (D vec_scalar_sub ltac:(decl))).
    reflexivity.
  - rewrite (vec_scal_pointwise _ _ B "vec_scalar_mul" "matrix_scalar_mul" KMul false (or_intror (or_intror (or_introl eq_refl))) (D vec_scalar_mul ltac:(decl))).
    f_equal. apply X. intros x. cbn. f_equal. lia.
  - rewrite (vec_scal_pointwise _ _ B "vec_scalar_div" "matrix_scalar_div" KDiv true (or_intror (or_intror (or_intror eq_refl))) (D vec_scalar_div ltac:(decl))).
    reflexivity.
  - rewrite (vec_scal_pointwise _ _ B "scalar_vec_sub" "scalar_matrix_sub" KSub false (or_intror (or_introl eq_refl)) (D scalar_vec_sub ltac:(decl))).
    reflexivity.
  - rewrite (vec_scal_pointwise _ _ B "scalar_vec_div" "scalar_matrix_div" KDiv false (or_intror (or_intror (or_intror eq_refl))) (D scalar_vec_div ltac:(decl))).
    reflexivity.
Qed.
Print Assumptions C23_vec_scalar.

Theorem C23_vec_map : forall e I h g, backend e I -> dsl I ->
  (forall x, i_call I h [VInt x] = option_map VInt (g x)) ->
  forall l, i_call I "vec_map" [vl l; VFn h] = option_map vl (mapO g l).
Proof. intros e I h g B D G. exact (vec_map_pointwise _ _ (backend_lib _ _ B) h g G (D vec_map ltac:(decl))). Qed.
Print Assumptions C23_vec_map.

(** the higher-order selections *)
Theorem C23_selection : forall e I h g, backend e I -> dsl I ->
  (forall x y, i_call I h [VInt x; VInt y] = option_map VInt (g x y)) ->
  forall l r, List.length l = List.length r ->
  i_call I "selection_two_args" [vl l; vl r; VFn h] = option_map vl (pointwise g l r).
Proof. intros e I h g B D G. exact (selection_pointwise _ _ (backend_lib _ _ B) h g G (D selection_two_args ltac:(decl))). Qed.
Print Assumptions C23_selection.

Theorem C23_dissolve_selection : forall e I h p q g, backend e I -> dsl I ->
  (forall x y, i_call I h [VInt x; VInt y; VInt p; VInt q] = option_map VInt (g x y)) ->
  forall l r, List.length l = List.length r ->
  i_call I "dissolve_selection_two_args" [vl l; vl r; VInt p; VInt q; VFn h] = option_map vl (pointwise g l r).
Proof.
  intros e I h p q g B D G.
  exact (dissolve_pointwise _ _ (backend_lib _ _ B) h g p q G (D dissolve_selection_two_args ltac:(decl))).
Qed.
Print Assumptions C23_dissolve_selection.

(** The matrix versions work row by row for all matrices of the same shape in the
    solver.  In Racket the claim is false: [matrix-prepend] drops an empty row. *)
Theorem C23_matrix_refuted : exists I, backend false I /\ dsl I /\
  let m := [[]; [1]] in
  i_call I "matrix_elemwise_add" [vm m; vm m] = Some (vm [[2]]) /\
  rowwise (pointwise (fun x y => Some (x + y))) m m = Some [[]; [2]].
Proof. exists demo_rkt. split; [apply demo_rkt_backend|]. split; [apply demo_rkt_dsl|]. split; vm_compute; reflexivity. Qed.
Print Assumptions C23_matrix_refuted.

(** [same_shape e m n]: [m] and [n] have equally long rows, and for [e = false] no empty row *)
Theorem C23_matrix_elemwise_partial : forall e I f g, backend e I -> dsl I -> In (f, g) (elementwise I) ->
  forall m n, same_shape e m n ->
  i_call I ("matrix_" ++ f) [vm m; vm n] = option_map vm (rowwise (pointwise g) m n).
Proof.
  intros e I f g B D H m n E. apply backend_lib in B. cbn [elementwise In] in H.
  destruct H as [[= <- <-]|[[= <- <-]|[[= <- <-]|[[= <- <-]|[]]]]].
  - exact (mat_elem_rowwise _ _ B "vec_elemwise_add" "matrix_elemwise_add" "tensor3d_elemwise_add" KAdd "matrix_elemwise_add" "tensor3d_elemwise_add"
      (or_introl eq_refl) (D vec_elemwise_add ltac:(decl)) (D matrix_elemwise_add ltac:(decl)) m n E).
  - exact (mat_elem_rowwise _ _ B "vec_elemwise_sub" "matrix_elemwise_sub" "tensor3d_elemwise_sub" KSub "matrix_elemwise_sub" "tensor3d_elemwise_sub"
      (or_intror (or_introl eq_refl)) (D vec_elemwise_sub ltac:(decl)) (D matrix_elemwise_sub ltac:(decl)) m n E).
  - exact (mat_elem_rowwise _ _ B "vec_elemwise_mul" "matrix_elemwise_mul" "tensor3d_elemwise_mul" KMul "matrix_elemwise_mul" "tensor3d_elemwise_mul"
      (or_intror (or_intror (or_introl eq_refl))) (D vec_elemwise_mul ltac:(decl)) (D matrix_elemwise_mul ltac:(decl)) m n E).
  - exact (mat_elem_rowwise _ _ B "vec_elemwise_div" "matrix_elemwise_div" "tensor3d_elemwise_div" KDiv "matrix_elemwise_div" "tensor3d_elemwise_div"
      (or_intror (or_intror (or_intror eq_refl))) (D vec_elemwise_div ltac:(decl)) (D matrix_elemwise_div ltac:(decl)) m n E).
Qed.
Print Assumptions C23_matrix_elemwise_partial.

Theorem C23_matrix_scalar_partial : forall e I f fm a g, backend e I -> dsl I -> In (f, fm, g) (with_scalar I a) ->
  forall m, e = true \/ Forall (fun r => r <> []) m ->
  i_call I fm [VInt a; vm m] = option_map vm (mapO (mapO g) m).
Proof.
  intros e I f fm a g B D H m NE. apply backend_lib in B. cbn [with_scalar In] in H.
  assert (X : forall g' : Z -> option Z, (forall x, g' x = g x) -> mapO (mapO g') m = mapO (mapO g) m).
  { intros g' E. clear NE. induction m as [|r m IH]; [reflexivity|]. cbn [mapO]. rewrite IH.
    assert (R : mapO g' r = mapO g r) by (induction r as [|x r IHr]; [reflexivity|]; cbn [mapO]; now rewrite E, IHr).
    now rewrite R. }
  destruct H as [[= <- <- <-]|[[= <- <- <-]|[[= <- <- <-]|[[= <- <- <-]|[[= <- <- <-]|[[= <- <- <-]|[]]]]]]].
  - rewrite (mat_scal_rowwise _ _ B "vec_scalar_add" "matrix_scalar_add" "matrix_scalar_add" KAdd false (op KAdd) (or_introl eq_refl)
      (D vec_scalar_add ltac:(decl)) (D matrix_scalar_add ltac:(decl)) a m NE).
    f_equal. apply X. intros x. cbn. f_equal. lia.
  - rewrite (mat_scal_rowwise _ _ B "vec_scalar_sub" "matrix_scalar_sub" "matrix_scalar_sub" KSub true (rop KSub) (or_intror (or_introl eq_refl))
      (D vec_scalar_sub ltac:(decl)) (D matrix_scalar_sub ltac:(decl)) a m NE).
    reflexivity.
  - rewrite (mat_scal_rowwise _ _ B "vec_scalar_mul" "matrix_scalar_mul" "matrix_scalar_mul" KMul false (op KMul) (or_intror (or_intror (or_introl eq_refl)))
      (D vec_scalar_mul ltac:(decl)) (D matrix_scalar_mul ltac:(decl)) a m NE).
    f_equal. apply X. intros x. cbn. f_equal. lia.
  - rewrite (mat_scal_rowwise _ _ B "vec_scalar_div" "matrix_scalar_div" "matrix_scalar_div" KDiv true (rop KDiv) (or_intror (or_intror (or_intror eq_refl)))
      (D vec_scalar_div ltac:(decl)) (D matrix_scalar_div ltac:(decl)) a m NE).
    reflexivity.
  - rewrite (mat_scal_rowwise _ _ B "scalar_vec_sub" "scalar_matrix_sub" "scalar_matrix_sub" KSub false (rop KSub) (or_intror (or_introl eq_refl))
      (D scalar_vec_sub ltac:(decl)) (D scalar_matrix_sub ltac:(decl)) a m NE).
    reflexivity.
  - rewrite (mat_scal_rowwise _ _ B "scalar_vec_div" "scalar_matrix_div" "scalar_matrix_div" KDiv false (op KDiv) (or_intror (or_intror (or_intror eq_refl)))
      (D scalar_vec_div ltac:(decl)) (D scalar_matrix_div ltac:(decl)) a m NE).
    reflexivity.
Qed.
Print Assumptions C23_matrix_scalar_partial.

Theorem C23_matrix_selection_partial : forall e I h g, backend e I -> dsl I ->
  (forall x y, i_call I h [VInt x; VInt y] = option_map VInt (g x y)) ->
  forall m n, same_shape e m n ->
  i_call I "matrix_selection_two_args" [vm m; vm n; VFn h] = option_map vm (rowwise (pointwise g) m n).
Proof.
  intros e I h g B D G. exact (matrix_selection_rowwise _ _ (backend_lib _ _ B) h g G (D selection_two_args ltac:(decl))
    (D matrix_selection_two_args ltac:(decl))).
Qed.
Print Assumptions C23_matrix_selection_partial.

(** in Racket and in the solver: 10 - x on [1; 2], max on pairs, and a matrix *)
Example C23_case_smt : backend true demo_smt /\ dsl demo_smt /\
  i_call demo_smt "scalar_vec_sub" [VInt 10; vl [1; 2]] = Some (vl [9; 8]) /\
  i_call demo_smt "vec_elemwise_div" [vl [7; -7]; vl [2; 2]] = Some (vl [3; -4]) /\
  i_call demo_smt "vec_map" [vl [1; 2]; VFn "twice"] = Some (vl [2; 4]) /\
  i_call demo_smt "selection_two_args" [vl [1; 5]; vl [3; 4]; VFn "larger"] = Some (vl [3; 5]) /\
  i_call demo_smt "matrix_elemwise_mul" [vm [[1; 2]; []; [3]]; vm [[4; 5]; []; [6]]] = Some (vm [[4; 10]; []; [18]]).
Proof. split; [apply demo_smt_backend|]. split; [apply demo_smt_dsl|]. vm_compute. auto. Qed.
Example C23_case_rkt : backend false demo_rkt /\ dsl demo_rkt /\
  i_call demo_rkt "vec_scalar_sub" [VInt 10; vl [1; 2]] = Some (vl [-9; -8]) /\
  i_call demo_rkt "vec_elemwise_div" [vl [7; -7]; vl [2; 2]] = Some (vl [3; -3]) /\
  i_call demo_rkt "matrix_scalar_mul" [VInt 3; vm [[1; 2]; [4]]] = Some (vm [[3; 6]; [12]]) /\
  same_shape false [[1; 2]; [4]] [[0; 0]; [0]].
Proof.
  split; [apply demo_rkt_backend|]. split; [apply demo_rkt_dsl|]. repeat split; try (vm_compute; reflexivity).
  constructor; [split; [reflexivity | right; discriminate]|].
  constructor; [split; [reflexivity | right; discriminate]|]. constructor.
Qed.

(** ** C24 *)

(** The 16 axioms about functions computed element by element, with the definitions
    that speak about the function *)
Definition step_axioms : list (list (res expr) * res expr) :=
  [([vec_elemwise_add], vec_elemwise_add_axiom);
   ([vec_elemwise_sub], vec_elemwise_sub_axiom);
   ([vec_elemwise_mul], vec_elemwise_mul_axiom);
   ([vec_elemwise_div], vec_elemwise_div_axiom);
   ([vec_scalar_add], vec_scalar_add_axiom);
   ([vec_scalar_sub], vec_scalar_sub_axiom);
   ([vec_scalar_mul], vec_scalar_mul_axiom);
   ([vec_scalar_div], vec_scalar_div_axiom);
   ([scalar_vec_sub], scalar_vec_sub_axiom);
   ([scalar_vec_div], scalar_vec_div_axiom);
   ([vec_elemwise_add; matrix_elemwise_add], matrix_elemwise_add_axiom);
   ([vec_elemwise_sub; matrix_elemwise_sub], matrix_elemwise_sub_axiom);
   ([vec_elemwise_mul; matrix_elemwise_mul], matrix_elemwise_mul_axiom);
   ([vec_scalar_mul; matrix_scalar_mul], matrix_scalar_mul_axiom);
   ([vec_scalar_div; matrix_scalar_div], matrix_scalar_div_axiom);
   ([vec_scalar_sub; matrix_scalar_sub], matrix_scalar_sub_axiom)].

Lemma step_axioms_good : forall S I defs ax, smt_model S I -> In (defs, ax) step_axioms ->
  (forall d, In d defs -> defines I d) -> good_axiom I ax.
Proof.
  intros S I defs ax M H D.
  assert (KA : arith_kind KAdd) by now left.
  assert (KS : arith_kind KSub) by (right; now left).
  assert (KM : arith_kind KMul) by (right; right; now left).
  assert (KD : arith_kind KDiv) by (right; right; now right).
  cbn [step_axioms In] in H. repeat (destruct H as [H|H]); try contradiction; injection H as <- <-;
  match type of D with
  | forall d, In d [?a] -> _ => pose proof (D a (or_introl eq_refl)) as D1; clear D
  | forall d, In d [?a; ?b] -> _ => pose proof (D a (or_introl eq_refl)) as D1; pose proof (D b (or_intror (or_introl eq_refl))) as D2; clear D
  end.
  - exact (elem_axiom_good S I M "vec_elemwise_add" "matrix_elemwise_add" "tensor3d_elemwise_add" KAdd KA D1).
  - exact (elem_axiom_good S I M "vec_elemwise_sub" "matrix_elemwise_sub" "tensor3d_elemwise_sub" KSub KS D1).
  - exact (elem_axiom_good S I M "vec_elemwise_mul" "matrix_elemwise_mul" "tensor3d_elemwise_mul" KMul KM D1).
  - exact (elem_axiom_good S I M "vec_elemwise_div" "matrix_elemwise_div" "tensor3d_elemwise_div" KDiv KD D1).
  - exact (scal_axiom_good S I M "vec_scalar_add" "matrix_scalar_add" KAdd false _ KA D1 (or_introl eq_refl)).
  - exact (scal_axiom_good S I M "vec_scalar_sub" "matrix_scalar_sub" KSub true _ KS D1 (or_introl eq_refl)).
  - exact (scal_axiom_good S I M "vec_scalar_mul" "matrix_scalar_mul" KMul false _ KM D1 (or_introl eq_refl)).
  - exact (scal_axiom_good S I M "vec_scalar_div" "matrix_scalar_div" KDiv true _ KD D1 (or_introl eq_refl)).
  - exact (scal_axiom_good S I M "scalar_vec_sub" "scalar_matrix_sub" KSub false _ KS D1 (or_introl eq_refl)).
  - exact (scal_axiom_good S I M "scalar_vec_div" "scalar_matrix_div" KDiv false _ KD D1 (or_intror eq_refl)).
  - exact (melem_axiom_good S I M _ _ _
      (c_melem S I M "vec_elemwise_add" "matrix_elemwise_add" "tensor3d_elemwise_add" "matrix_elemwise_add" "tensor3d_elemwise_add" KAdd KA D1 D2)
      (c_velem S I M "vec_elemwise_add" "matrix_elemwise_add" "tensor3d_elemwise_add" KAdd KA D1)).
  - exact (melem_axiom_good S I M _ _ _
      (c_melem S I M "vec_elemwise_sub" "matrix_elemwise_sub" "tensor3d_elemwise_sub" "matrix_elemwise_sub" "tensor3d_elemwise_sub" KSub KS D1 D2)
      (c_velem S I M "vec_elemwise_sub" "matrix_elemwise_sub" "tensor3d_elemwise_sub" KSub KS D1)).
  - exact (melem_axiom_good S I M _ _ _
      (c_melem S I M "vec_elemwise_mul" "matrix_elemwise_mul" "tensor3d_elemwise_mul" "matrix_elemwise_mul" "tensor3d_elemwise_mul" KMul KM D1 D2)
      (c_velem S I M "vec_elemwise_mul" "matrix_elemwise_mul" "tensor3d_elemwise_mul" KMul KM D1)).
  - exact (mscal_axiom_good S I M _ _ (fun a => map (scal_t S KMul false a))
      (c_mscal S I M "vec_scalar_mul" "matrix_scalar_mul" "matrix_scalar_mul" KMul false (op KMul) KM D1 D2)
      (c_vscal S I M "vec_scalar_mul" "matrix_scalar_mul" KMul false KM D1)).
  - exact (mscal_axiom_good S I M _ _ (fun a => map (scal_t S KDiv true a))
      (c_mscal S I M "vec_scalar_div" "matrix_scalar_div" "matrix_scalar_div" KDiv true (rop KDiv) KD D1 D2)
      (c_vscal S I M "vec_scalar_div" "matrix_scalar_div" KDiv true KD D1)).
  - exact (mscal_axiom_good S I M _ _ (fun a => map (scal_t S KSub true a))
      (c_mscal S I M "vec_scalar_sub" "matrix_scalar_sub" "matrix_scalar_sub" KSub true (rop KSub) KS D1 D2)
      (c_vscal S I M "vec_scalar_sub" "matrix_scalar_sub" KSub true KS D1)).
Qed.

(** The claim is false, and not only in some model: there is no model of the
    solver's prelude and of the definition(s) in which the axiom is true.  So the
    solver is given contradictory assertions and can report [unsat] for every
    verification condition.  (Each of these axioms fails for index 0: it equates
    the empty vector with a vector that has a first element.) *)
Theorem C24_step_axioms_refuted : forall defs ax, In (defs, ax) step_axioms ->
  ~ exists S I, smt_model S I /\ (forall d, In d defs -> defines I d) /\ axiom_holds I ax.
Proof. intros defs ax H (S & I & M & D & A). exact (proj2 (step_axioms_good S I defs ax M H D) A). Qed.
Print Assumptions C24_step_axioms_refuted.

(** For index 1 and above, the axioms are consequences of the definitions. *)
Theorem C24_step_axioms_partial : forall S I defs ax, smt_model S I -> In (defs, ax) step_axioms ->
  (forall d, In d defs -> defines I d) -> axiom_holds_when index_from_1 I ax.
Proof. intros S I defs ax M H D. exact (proj1 (step_axioms_good S I defs ax M H D)). Qed.
Print Assumptions C24_step_axioms_partial.

(** [selection_two_args] etc. in the axioms stand for the function specialised to a
    function argument [h] *)
Definition specialised2 (I : interp) (f h : string) : Prop :=
  forall a b, i_call I f [a; b] = i_call I f [a; b; VFn h].
Definition specialised4 (I : interp) (f h : string) : Prop :=
  forall a b c d, i_call I f [a; b; c; d] = i_call I f [a; b; c; d; VFn h].

Lemma selection_axiom_good : forall S I h g, smt_model S I ->
  (forall x y, i_call I h [VInt x; VInt y] = Some (VInt (g x y))) ->
  defines I selection_two_args -> defines I matrix_selection_two_args ->
  specialised2 I "selection_two_args" h -> specialised2 I "matrix_selection_two_args" h ->
  good_axiom I matrix_selection_two_args_axiom.
Proof.
  intros S I h g M G D1 D2 S1 S2. refine (melem_axiom_good S I M _ _ (velem g) _ _).
  - intros. rewrite S2. now apply (c_msel S I M).
  - intros. rewrite S1. now apply (c_sel S I M).
Qed.

Lemma dissolve_selection_axiom_good : forall S I h g, smt_model S I ->
  (forall x y p q, i_call I h [VInt x; VInt y; VInt p; VInt q] = Some (VInt (g x y p q))) ->
  defines I dissolve_selection_two_args -> defines I dissolve_matrix_selection_two_args ->
  specialised4 I "dissolve_selection_two_args" h -> specialised4 I "dissolve_matrix_selection_two_args" h ->
  good_axiom I dissolve_matrix_selection_two_args_axiom.
Proof.
  intros S I h g M G D1 D2 S1 S2. apply (dissolve_axiom_good S I M g).
  - intros. rewrite S2. now apply (c_dmsel S I M).
  - intros. rewrite S1. now apply (c_dsel S I M).
Qed.

Theorem C24_selection_axiom_refuted : ~ exists S I h g, smt_model S I /\
  (forall x y, i_call I h [VInt x; VInt y] = Some (VInt (g x y))) /\
  defines I selection_two_args /\ defines I matrix_selection_two_args /\
  specialised2 I "selection_two_args" h /\ specialised2 I "matrix_selection_two_args" h /\
  axiom_holds I matrix_selection_two_args_axiom.
Proof.
  intros (S & I & h & g & M & G & D1 & D2 & S1 & S2 & A).
  exact (proj2 (selection_axiom_good S I h g M G D1 D2 S1 S2) A).
Qed.
Print Assumptions C24_selection_axiom_refuted.

Theorem C24_selection_axiom_partial : forall S I h g, smt_model S I ->
  (forall x y, i_call I h [VInt x; VInt y] = Some (VInt (g x y))) ->
  defines I selection_two_args -> defines I matrix_selection_two_args ->
  specialised2 I "selection_two_args" h -> specialised2 I "matrix_selection_two_args" h ->
  axiom_holds_when index_from_1 I matrix_selection_two_args_axiom.
Proof. intros S I h g M G D1 D2 S1 S2. exact (proj1 (selection_axiom_good S I h g M G D1 D2 S1 S2)). Qed.
Print Assumptions C24_selection_axiom_partial.

Theorem C24_dissolve_axiom_refuted : ~ exists S I h g, smt_model S I /\
  (forall x y p q, i_call I h [VInt x; VInt y; VInt p; VInt q] = Some (VInt (g x y p q))) /\
  defines I dissolve_selection_two_args /\ defines I dissolve_matrix_selection_two_args /\
  specialised4 I "dissolve_selection_two_args" h /\ specialised4 I "dissolve_matrix_selection_two_args" h /\
  axiom_holds I dissolve_matrix_selection_two_args_axiom.
Proof.
  intros (S & I & h & g & M & G & D1 & D2 & S1 & S2 & A).
  exact (proj2 (dissolve_selection_axiom_good S I h g M G D1 D2 S1 S2) A).
Qed.
Print Assumptions C24_dissolve_axiom_refuted.

Theorem C24_dissolve_axiom_partial : forall S I h g, smt_model S I ->
  (forall x y p q, i_call I h [VInt x; VInt y; VInt p; VInt q] = Some (VInt (g x y p q))) ->
  defines I dissolve_selection_two_args -> defines I dissolve_matrix_selection_two_args ->
  specialised4 I "dissolve_selection_two_args" h -> specialised4 I "dissolve_matrix_selection_two_args" h ->
  axiom_holds_when index_from_1 I dissolve_matrix_selection_two_args_axiom.
Proof. intros S I h g M G D1 D2 S1 S2. exact (proj1 (dissolve_selection_axiom_good S I h g M G D1 D2 S1 S2)). Qed.
Print Assumptions C24_dissolve_axiom_partial.

(** the reductions.  [reduce_sum_axiom] is equivalent to a fact the prelude does not
    contain: reading past the end of a vector gives 0. *)
Theorem C24_reduce_sum_axiom_partial : forall S I, smt_model S I -> defines I reduce_sum ->
  (axiom_holds I reduce_sum_axiom <-> forall l i, zlen l <= i -> SmtPrelude.list_get S l i = 0).
Proof. exact sum_axiom_iff. Qed.
Print Assumptions C24_reduce_sum_axiom_partial.

(** a model of the prelude in which reading past the end gives 7 *)
Definition std7 : smt := std_gen 7 0.

Theorem C24_reduce_sum_axiom_refuted : exists S I, smt_model S I /\ dsl I /\ ~ axiom_holds I reduce_sum_axiom.
Proof.
  set (I := demo (smt_apply std7) (fun a b => Some (smt_div std7 a b))).
  assert (M : smt_model std7 I) by (constructor; [apply std_gen_core | apply demo_follows, smt_sorted | reflexivity]).
  assert (D : dsl I) by (apply (demo_dsl true), backend_lib; exists std7; exact M).
  exists std7, I. split; [exact M|]. split; [exact D|].
  rewrite (sum_axiom_iff std7 I M (D reduce_sum ltac:(decl))). intros A. discriminate (A [] 0 ltac:(reflexivity)).
Qed.
Print Assumptions C24_reduce_sum_axiom_refuted.

(** It is at least consistent with the prelude and all definitions. *)
Example C24_reduce_sum_case : smt_model std demo_smt /\ dsl demo_smt /\ axiom_holds demo_smt reduce_sum_axiom.
Proof.
  split; [apply demo_smt_model|]. split; [apply demo_smt_dsl|].
  apply (sum_axiom_iff std demo_smt demo_smt_model (demo_smt_dsl reduce_sum ltac:(decl))).
  intros l i H. unfold SmtPrelude.list_get. cbn. apply nth_overflow. unfold zlen in H. lia.
Qed.

(** [reduce_max_axiom] contradicts the definition of [reduce_max] (at index 0 for a
    vector starting below -32). *)
Theorem C24_reduce_max_axiom_refuted :
  ~ exists S I, smt_model S I /\ defines I reduce_max /\ axiom_holds I reduce_max_axiom.
Proof. intros (S & I & M & D & A). exact (proj2 (max_axiom_good S I M D) A). Qed.
Print Assumptions C24_reduce_max_axiom_refuted.

Theorem C24_reduce_max_axiom_partial : forall S I, smt_model S I -> defines I reduce_max ->
  axiom_holds_when index_inside I reduce_max_axiom.
Proof. intros S I M D. exact (proj1 (max_axiom_good S I M D)). Qed.
Print Assumptions C24_reduce_max_axiom_partial.

Theorem C24_matrix_vec_mul_axiom_refuted : ~ exists S I, smt_model S I /\
  defines I vec_elemwise_mul /\ defines I reduce_sum /\ defines I matrix_vec_mul /\ axiom_holds I matrix_vec_mul_axiom.
Proof. intros (S & I & M & D1 & D2 & D3 & A). exact (proj2 (mvm_axiom_good S I M D1 D2 D3) A). Qed.
Print Assumptions C24_matrix_vec_mul_axiom_refuted.

Theorem C24_matrix_vec_mul_axiom_partial : forall S I, smt_model S I ->
  defines I vec_elemwise_mul -> defines I reduce_sum -> defines I matrix_vec_mul ->
  axiom_holds_when (fun r => index_from_1 r /\ first_row_fits r) I matrix_vec_mul_axiom.
Proof. intros S I M D1 D2 D3. exact (proj1 (mvm_axiom_good S I M D1 D2 D3)). Qed.
Print Assumptions C24_matrix_vec_mul_axiom_partial.

(** the definitions alone do have a model, and in it the axiom for
    [vec_elemwise_add] is true at a = [1;2;3], b = [4;5;6], index = 2 and false at index = 0 *)
Definition axiom_env (i : Z) : env := env3 "a" (vl [1; 2; 3]) "b" (vl [4; 5; 6]) i.
Example C24_case : smt_model std demo_smt /\ dsl demo_smt /\ index_from_1 (axiom_env 2) /\
  match vec_elemwise_add_axiom with
  | Ok (Node KAxiom _ (e :: vars)) =>
      typed (axiom_env 2) vars /\ eval demo_smt (axiom_env 2) e = Some (VBool true) /\
      eval demo_smt (axiom_env 0) e = Some (VBool false)
  | _ => False
  end.
Proof.
  split; [apply demo_smt_model|]. split; [apply demo_smt_dsl|].
  split; [exists 2; split; [reflexivity | lia]|].
  split; [repeat constructor; cbn; eexists; (split; [reflexivity|]); cbn; eexists; reflexivity|].
  split; vm_compute; reflexivity.
Qed.

Example C24_selection_case : smt_model std demo_smt /\
  (forall x y, i_call demo_smt "larger" [VInt x; VInt y] = Some (VInt (Z.max x y))) /\
  (forall x y p q, i_call demo_smt "mix" [VInt x; VInt y; VInt p; VInt q] = Some (VInt (if p <? q then x else y))) /\
  i_call demo_smt "matrix_selection_two_args" [vm [[1; 5]; [2]]; vm [[3; 4]; [2]]] = Some (vm [[3; 5]; [2]]) /\
  i_call demo_smt "matrix_selection_two_args" [vm [[1; 5]; [2]]; vm [[3; 4]; [2]]; VFn "larger"] = Some (vm [[3; 5]; [2]]).
Proof.
  split; [apply demo_smt_model|]. split; [reflexivity|]. split; [reflexivity|]. split; vm_compute; reflexivity.
Qed.

(** ** C25 *)

Theorem C25_reduce_sum : forall e I, backend e I -> dsl I -> forall l,
  i_call I "reduce_sum" [vl l] = Some (VInt (fold_right Z.add 0 l)).
Proof. intros e I B D. exact (reduce_sum_is _ _ (backend_lib _ _ B) (D reduce_sum ltac:(decl))). Qed.
Print Assumptions C25_reduce_sum.

Theorem C25_reduce_mul : forall e I, backend e I -> dsl I -> forall l,
  i_call I "reduce_mul" [vl l] = Some (VInt (fold_right Z.mul 1 l)).
Proof. intros e I B D. exact (reduce_mul_is _ _ (backend_lib _ _ B) (D reduce_mul ltac:(decl))). Qed.
Print Assumptions C25_reduce_mul.

(** [m] is the maximum of [l] *)
Definition is_max (m : Z) (l : list Z) : Prop := In m l /\ forall x, In x l -> x <= m.

Lemma maxval_is_max x l : is_max (maxval x l) (x :: l).
Proof.
  revert x. induction l as [|y l IH]; intros x; cbn [maxval].
  - split; [now left|]. intros z [<-|[]]. lia.
  - destruct (IH y) as [H1 H2]. split.
    + destruct (Z.max_spec x (maxval y l)) as [[_ ->]|[_ ->]]; [now right | now left].
    + intros z [<-|H]; [lia|]. specialize (H2 z H). lia.
Qed.

Theorem C25_reduce_max_partial : forall e I, backend e I -> dsl I -> forall l, l <> [] ->
  exists m, i_call I "reduce_max" [vl l] = Some (VInt m) /\ is_max m l.
Proof.
  intros e I B D l NE. rewrite (reduce_max_is _ _ (backend_lib _ _ B) (D reduce_max ltac:(decl))).
  destruct l as [|x l]; [congruence|]. eexists. split; [reflexivity|]. apply maxval_is_max.
Qed.
Print Assumptions C25_reduce_max_partial.

(** the empty vector has no maximum; the DSL answers -32, which is also larger than
    the elements of many vectors: it is no neutral element *)
Theorem C25_reduce_max_refuted : forall e I, backend e I -> dsl I ->
  i_call I "reduce_max" [vl []] = Some (VInt (-32)) /\
  i_call I "reduce_max" [vl [-40]] = Some (VInt (-40)).
Proof.
  intros e I B D. rewrite !(reduce_max_is _ _ (backend_lib _ _ B) (D reduce_max ltac:(decl))). auto.
Qed.
Print Assumptions C25_reduce_max_refuted.

(** the rows have as many entries as the vector, and at least one *)
Theorem C25_matrix_vec_mul_partial : forall e I, backend e I -> dsl I -> forall m v,
  v <> [] -> Forall (fun r => List.length r = List.length v) m ->
  i_call I "matrix_vec_mul" [vm m; vl v] = Some (vl (map (fun r => dot r v) m)).
Proof.
  intros e I B D m v NE H.
  rewrite (matrix_vec_mul_is _ _ (backend_lib _ _ B) (D vec_elemwise_mul ltac:(decl)) (D reduce_sum ltac:(decl))
    (D matrix_vec_mul ltac:(decl))).
  replace (good_rows m v) with m; [reflexivity|]. symmetry. induction H as [|r m E H IH]; [reflexivity|].
  cbn [good_rows]. unfold zlen. rewrite E, Z.eqb_refl, IH.
  destruct (Z.ltb_spec (Z.of_nat (List.length v)) 1); [destruct v; [congruence | simpl in *; lia] | reflexivity].
Qed.
Print Assumptions C25_matrix_vec_mul_partial.

(** A row of the wrong length ends the result; a matrix with no columns gives the
    empty vector instead of one 0 per row. *)
Theorem C25_matrix_vec_mul_refuted : forall e I, backend e I -> dsl I ->
  i_call I "matrix_vec_mul" [vm [[1; 2]; [3]; [4; 5]]; vl [1; 1]] = Some (vl [3]) /\
  i_call I "matrix_vec_mul" [vm [[]; []]; vl []] = Some (vl []) /\
  map (fun r => dot r []) [[]; []] = [0; 0].
Proof.
  intros e I B D.
  rewrite !(matrix_vec_mul_is _ _ (backend_lib _ _ B) (D vec_elemwise_mul ltac:(decl)) (D reduce_sum ltac:(decl))
    (D matrix_vec_mul ltac:(decl))). auto.
Qed.
Print Assumptions C25_matrix_vec_mul_refuted.

Example C25_case : backend true demo_smt /\ dsl demo_smt /\
  i_call demo_smt "reduce_sum" [vl [3; -1; 4]] = Some (VInt 6) /\
  i_call demo_smt "reduce_max" [vl [-50; -40]] = Some (VInt (-40)) /\
  i_call demo_smt "matrix_vec_mul" [vm [[1; 2]; [3; 4]]; vl [5; 6]] = Some (vl [17; 39]).
Proof. split; [apply demo_smt_backend|]. split; [apply demo_smt_dsl|]. vm_compute. auto. Qed.
