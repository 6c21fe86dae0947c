(** C58: the Python definitions of the operators mean what the IR definitions mean. *)

From Coq Require Import String List ZArith Bool Lia.
From Verif Require Import Ast Semantics SmtPrelude SmtProofs RktModel RktProofs ListOps UtilModel ObjModel TensModel LibSem
  TensProofs AxProofs Properties_Tens DslModel DslProofs.
Import ListNotations.
Local Open Scope string_scope.
Local Open Scope Z_scope.

(** ** specification *)

(** the pairs (dividend, divisor) among the elements that a division divides *)
Definition divided (f : string) (args : list dval) : list (Z * Z) :=
  match args with
  | [DL l; DL r] => if String.eqb f "vec_elemwise_div" then combine l r else []
  | [DM m; DM n] =>
      if String.eqb f "matrix_elemwise_div" then flat_map (fun p => combine (fst p) (snd p)) (combine m n) else []
  | [DZ a; DL l] =>
      if String.eqb f "vec_scalar_div" then map (fun x => (x, a)) l
      else if String.eqb f "scalar_vec_div" then map (fun x => (a, x)) l else []
  | [DZ a; DM m] =>
      if String.eqb f "matrix_scalar_div" then map (fun x => (x, a)) (List.concat m)
      else if String.eqb f "scalar_matrix_div" then map (fun x => (a, x)) (List.concat m) else []
  | _ => []
  end.

(** the bounds of slices are not negative *)
Definition bounds_ok (args : list dval) : Prop :=
  match args with [_; DZ st; DZ en] => 0 <= st /\ 0 <= en | _ => True end.

(** no row of a matrix is empty *)
Definition full_rows (d : dval) : Prop :=
  match d with DM m => Forall (fun r => r <> []) m | _ => True end.

(** the kinds of the arguments, as annotated in dsl.py *)
Inductive kind_of : Type := KZ | KL | KM.
Definition kinds (args : list dval) : list (option kind_of) :=
  map (fun d => match d with DZ _ => Some KZ | DL _ => Some KL | DM _ => Some KM | _ => None end) args.
Definition signatures : list (list string * list kind_of) :=
  [(["vec_elemwise_add"; "vec_elemwise_sub"; "vec_elemwise_mul"; "vec_elemwise_div"], [KL; KL]);
   (["matrix_elemwise_add"; "matrix_elemwise_sub"; "matrix_elemwise_mul"; "matrix_elemwise_div"], [KM; KM]);
   (["vec_scalar_add"; "vec_scalar_sub"; "vec_scalar_mul"; "vec_scalar_div"; "scalar_vec_sub"; "scalar_vec_div"], [KZ; KL]);
   (["matrix_scalar_add"; "matrix_scalar_sub"; "matrix_scalar_mul"; "matrix_scalar_div"; "scalar_matrix_sub";
     "scalar_matrix_div"], [KZ; KM]);
   (["reduce_sum"; "reduce_mul"; "reduce_max"], [KL]);
   (["matrix_vec_mul"], [KM; KL]);
   (["vec_slice"], [KL; KZ; KZ]);
   (["matrix_row_slice"; "matrix_col_slice"], [KM; KZ; KZ])].

(** ** proofs *)

Lemma div_op x y z : floordiv x y = Ok z -> y <> 0 /\ z = x / y.
Proof. unfold floordiv. destruct (Z.eqb_spec y 0); [discriminate|]. intros [= <-]. auto. Qed.

Lemma in_flat2 {A B} (m : list (list A)) (n : list (list B)) l r (p : A * B) :
  In (l, r) (combine m n) -> In p (combine l r) -> In p (flat_map (fun q => combine (fst q) (snd q)) (combine m n)).
Proof. intros H1 H2. apply in_flat_map. now exists (l, r). Qed.

Ltac dec_name H :=
  match type of H with
  | (if String.eqb ?f ?s then _ else _) = _ =>
      let E := fresh in destruct (String.eqb_spec f s) as [E|E]; [rewrite E in *; clear E|clear E; dec_name H]
  | _ => try discriminate H
  end.
Ltac got H :=
  match type of H with (v <- ?r ;; _) = Ok _ => let V := fresh "V" in destruct r as [?w|] eqn:V; [|discriminate H] end;
  injection H as <-.

Section Values.
  Variables (e : bool) (I : interp).
  Hypothesis L : list_lib e I.
  Hypothesis D : dsl I.

  Let KA : arith_kind KAdd. Proof. now left. Qed.
  Let KS : arith_kind KSub. Proof. right; now left. Qed.
  Let KM' : arith_kind KMul. Proof. right; right; now left. Qed.
  Let KD : arith_kind KDiv. Proof. right; right; now right. Qed.
  Let okdiv (ps : list (Z * Z)) : Prop := forall x y, In (x, y) ps -> y <> 0 -> i_div I x y = Some (x / y).

  Lemma v_add l r v : py_vec_elemwise_add l r = Ok v -> i_call I "vec_elemwise_add" [vl l; vl r] = Some (vl v).
  Proof.
    intros H. refine (vec2 _ _ L "vec_elemwise_add" "matrix_elemwise_add" "tensor3d_elemwise_add" KAdd _ KA
      (D vec_elemwise_add ltac:(decl)) l r v H _). intros x y z _ [= <-]. reflexivity.
  Qed.
  Lemma v_sub l r v : py_vec_elemwise_sub l r = Ok v -> i_call I "vec_elemwise_sub" [vl l; vl r] = Some (vl v).
  Proof.
    intros H. refine (vec2 _ _ L "vec_elemwise_sub" "matrix_elemwise_sub" "tensor3d_elemwise_sub" KSub _ KS
      (D vec_elemwise_sub ltac:(decl)) l r v H _). intros x y z _ [= <-]. reflexivity.
  Qed.
  Lemma v_mul l r v : py_vec_elemwise_mul l r = Ok v -> i_call I "vec_elemwise_mul" [vl l; vl r] = Some (vl v).
  Proof.
    intros H. refine (vec2 _ _ L "vec_elemwise_mul" "matrix_elemwise_mul" "tensor3d_elemwise_mul" KMul _ KM'
      (D vec_elemwise_mul ltac:(decl)) l r v H _). intros x y z _ [= <-]. reflexivity.
  Qed.
  Lemma v_div l r v : okdiv (combine l r) -> py_vec_elemwise_div l r = Ok v ->
    i_call I "vec_elemwise_div" [vl l; vl r] = Some (vl v).
  Proof.
    intros O H. refine (vec2 _ _ L "vec_elemwise_div" "matrix_elemwise_div" "tensor3d_elemwise_div" KDiv _ KD
      (D vec_elemwise_div ltac:(decl)) l r v H _). intros x y z IN F. apply div_op in F as [N ->]. now apply O.
  Qed.

  Lemma s_add a l v : py_vec_scalar_add a l = Ok v -> i_call I "vec_scalar_add" [VInt a; vl l] = Some (vl v).
  Proof.
    intros H. refine (vec1 _ _ L "vec_scalar_add" "matrix_scalar_add" KAdd false _ a KA
      (D vec_scalar_add ltac:(decl)) l v H _). intros x z _ [= <-]. reflexivity.
  Qed.
  Lemma s_sub a l v : py_vec_scalar_sub a l = Ok v -> i_call I "vec_scalar_sub" [VInt a; vl l] = Some (vl v).
  Proof.
    intros H. refine (vec1 _ _ L "vec_scalar_sub" "matrix_scalar_sub" KSub true _ a KS
      (D vec_scalar_sub ltac:(decl)) l v H _). intros x z _ [= <-]. reflexivity.
  Qed.
  Lemma s_mul a l v : py_vec_scalar_mul a l = Ok v -> i_call I "vec_scalar_mul" [VInt a; vl l] = Some (vl v).
  Proof.
    intros H. refine (vec1 _ _ L "vec_scalar_mul" "matrix_scalar_mul" KMul false _ a KM'
      (D vec_scalar_mul ltac:(decl)) l v H _). intros x z _ [= <-]. reflexivity.
  Qed.
  Lemma s_div a l v : okdiv (map (fun x => (x, a)) l) -> py_vec_scalar_div a l = Ok v ->
    i_call I "vec_scalar_div" [VInt a; vl l] = Some (vl v).
  Proof.
    intros O H. refine (vec1 _ _ L "vec_scalar_div" "matrix_scalar_div" KDiv true _ a KD
      (D vec_scalar_div ltac:(decl)) l v H _). intros x z IN F. apply div_op in F as [N ->].
    apply O; auto. apply in_map_iff. eauto.
  Qed.
  Lemma sv_sub a l v : py_scalar_vec_sub a l = Ok v -> i_call I "scalar_vec_sub" [VInt a; vl l] = Some (vl v).
  Proof.
    intros H. refine (vec1 _ _ L "scalar_vec_sub" "scalar_matrix_sub" KSub false _ a KS
      (D scalar_vec_sub ltac:(decl)) l v H _). intros x z _ [= <-]. reflexivity.
  Qed.
  Lemma sv_div a l v : okdiv (map (fun x => (a, x)) l) -> py_scalar_vec_div a l = Ok v ->
    i_call I "scalar_vec_div" [VInt a; vl l] = Some (vl v).
  Proof.
    intros O H. refine (vec1 _ _ L "scalar_vec_div" "scalar_matrix_div" KDiv false _ a KD
      (D scalar_vec_div ltac:(decl)) l v H _). intros x z IN F. apply div_op in F as [N ->].
    apply O; auto. apply in_map_iff. eauto.
  Qed.
End Values.

Lemma okdiv_row {A} (g : A -> Z * Z) m l (Q : Z -> Z -> Prop) : In l m ->
  (forall x y, In (x, y) (map g (List.concat m)) -> Q x y) -> forall x y, In (x, y) (map g l) -> Q x y.
Proof.
  intros IN H x y J. apply H. apply in_map_iff in J as (t & E & J). apply in_map_iff. exists t. split; auto.
  apply in_concat. eauto.
Qed.

(** ** C58 *)

(** When a Python operator returns a value, the operator of the same name has that
    value in both backends, provided the division of the backend rounds down for the
    elements divided, the bounds of slices are not negative, and (in Racket) no row of
    the resulting matrix is empty. *)
Theorem C58_values_partial : forall e I f args v, backend e I -> dsl I ->
  py_dsl f args = Ok v ->
  (forall x y, In (x, y) (divided f args) -> y <> 0 -> i_div I x y = Some (x / y)) ->
  bounds_ok args ->
  (e = true \/ full_rows v) ->
  i_call I f (map emb args) = Some (emb v).
Proof.
  intros e I f args v B D H O Bd NE. pose proof (backend_lib _ _ B) as L.
  unfold py_dsl in H. cbv zeta in H.
  destruct args as [|[a|b|l|m|t] [|[a'|b'|l'|m'|t'] [|[a''|b''|l''|m''|t''] [|? ?]]]]; try discriminate H;
    cbn [map emb]; dec_name H.
  (* matrix versions with a scalar *)
  - got H. now apply (s_add e I L D).
  - got H. now apply (s_sub e I L D).
  - got H. now apply (s_mul e I L D).
  - got H. now apply (s_div e I L D).
  - got H. now apply (sv_sub e I L D).
  - got H. now apply (sv_div e I L D).
  - got H. refine (mat1 e I L "vec_scalar_add" _ (op KAdd) _ a (D matrix_scalar_add ltac:(decl)) m' _ V _ NE).
    intros l z IN F. now apply (s_add e I L D).
  - got H. refine (mat1 e I L "vec_scalar_sub" _ (rop KSub) _ a (D matrix_scalar_sub ltac:(decl)) m' _ V _ NE).
    intros l z IN F. now apply (s_sub e I L D).
  - got H. refine (mat1 e I L "vec_scalar_mul" _ (op KMul) _ a (D matrix_scalar_mul ltac:(decl)) m' _ V _ NE).
    intros l z IN F. now apply (s_mul e I L D).
  - got H. refine (mat1 e I L "vec_scalar_div" _ (rop KDiv) _ a (D matrix_scalar_div ltac:(decl)) m' _ V _ NE).
    intros l z IN F. apply (s_div e I L D); auto. exact (okdiv_row _ m' l _ IN O).
  - got H. refine (mat1 e I L "scalar_vec_sub" _ (rop KSub) _ a (D scalar_matrix_sub ltac:(decl)) m' _ V _ NE).
    intros l z IN F. now apply (sv_sub e I L D).
  - got H. refine (mat1 e I L "scalar_vec_div" _ (op KDiv) _ a (D scalar_matrix_div ltac:(decl)) m' _ V _ NE).
    intros l z IN F. apply (sv_div e I L D); auto. exact (okdiv_row _ m' l _ IN O).
  (* reductions *)
  - injection H as <-. rewrite py_sum_is. exact (reduce_sum_is _ _ L (D reduce_sum ltac:(decl)) l).
  - injection H as <-. rewrite py_mul_is. exact (reduce_mul_is _ _ L (D reduce_mul ltac:(decl)) l).
  - injection H as <-. rewrite py_max_is. exact (reduce_max_is _ _ L (D reduce_max ltac:(decl)) l).
  (* slices of vectors *)
  - injection H as <-. unfold py_vec_slice. destruct Bd as [Bs Be]. rewrite (upto_is _ _ Be), (from_is _ _ Bs).
    destruct e.
    + destruct B as (S & M). pose proof (sm_lists _ _ M "vec_slice" [DL l; DZ a'; DZ a''] _ eq_refl) as X.
      cbn [map emb] in X. rewrite X. now rewrite (vec_slice_is S (sm_core _ _ M)).
    + pose proof (B "vec_slice" [DL l; DZ a'; DZ a''] _ eq_refl) as X. cbn [map emb] in X. rewrite X.
      now rewrite slice_noerr_is.
  (* two vectors *)
  - got H. now apply (v_add e I L D).
  - got H. now apply (v_sub e I L D).
  - got H. now apply (v_mul e I L D).
  - got H. now apply (v_div e I L D).
  (* slices of matrices *)
  - injection H as <-. unfold py_matrix_row_slice. destruct Bd as [Bs Be]. rewrite (upto_is _ _ Be), (from_is _ _ Bs).
    destruct e.
    + destruct B as (S & M). pose proof (sm_lists _ _ M "matrix_row_slice" [DM m; DZ a'; DZ a''] _ eq_refl) as X.
      cbn [map emb] in X. rewrite X. now rewrite (row_slice_is S (sm_core _ _ M)).
    + pose proof (B "matrix_row_slice" [DM m; DZ a'; DZ a''] _ eq_refl) as X. cbn [map emb] in X. rewrite X.
      now rewrite slice_noerr_is.
  - injection H as <-. destruct Bd as [Bs Be].
    assert (E : py_matrix_col_slice m a' a'' = map (fun r => skipn (Z.to_nat a') (firstn (Z.to_nat a'') r)) m).
    { apply map_ext. intros r. now apply slice_is. }
    destruct e.
    + destruct B as (S & M). pose proof (sm_lists _ _ M "matrix_col_slice" [DM m; DZ a'; DZ a''] _ eq_refl) as X.
      cbn [map emb] in X. rewrite X. now rewrite (col_slice_is S (sm_core _ _ M)), E.
    + destruct NE as [|NE]; [discriminate|]. cbn [full_rows] in NE. rewrite E in NE.
      pose proof (B "matrix_col_slice" [DM m; DZ a'; DZ a''] _ eq_refl) as X. cbn [map emb] in X. rewrite X.
      rewrite E. rewrite col_slice_noerr_is; auto. clear -NE. induction m; [constructor|].
      inversion NE; subst. constructor; auto.
  (* matrix and vector *)
  - got H. rewrite py_mvm_is in V. injection V as <-.
    exact (matrix_vec_mul_is _ _ L (D vec_elemwise_mul ltac:(decl)) (D reduce_sum ltac:(decl)) (D matrix_vec_mul ltac:(decl)) m l').
  (* two matrices *)
  - got H. refine (mat2 e I L "vec_elemwise_add" _ "tensor3d_elemwise_add" _ (D matrix_elemwise_add ltac:(decl)) m m' _ V _ NE).
    intros l r z IN F. now apply (v_add e I L D).
  - got H. refine (mat2 e I L "vec_elemwise_sub" _ "tensor3d_elemwise_sub" _ (D matrix_elemwise_sub ltac:(decl)) m m' _ V _ NE).
    intros l r z IN F. now apply (v_sub e I L D).
  - got H. refine (mat2 e I L "vec_elemwise_mul" _ "tensor3d_elemwise_mul" _ (D matrix_elemwise_mul ltac:(decl)) m m' _ V _ NE).
    intros l r z IN F. now apply (v_mul e I L D).
  - got H. refine (mat2 e I L "vec_elemwise_div" _ "tensor3d_elemwise_div" _ (D matrix_elemwise_div ltac:(decl)) m m' _ V _ NE).
    intros l r z IN F. apply (v_div e I L D); auto. intros x y J. apply O. cbn. eapply in_flat2; eauto.
Qed.
Print Assumptions C58_values_partial.

(** In the solver, whose division is fixed: it is enough that divisors are positive
    (or zero: then Python raises). *)
Theorem C58_solver_partial : forall S I f args v, smt_model S I -> dsl I ->
  py_dsl f args = Ok v ->
  (forall x y, In (x, y) (divided f args) -> 0 <= y) ->
  bounds_ok args ->
  i_call I f (map emb args) = Some (emb v).
Proof.
  intros S I f args v M D H O Bd. apply (C58_values_partial true I f args v); auto.
  - now exists S.
  - intros x y IN N. rewrite (sm_div _ _ M). unfold smt_div. destruct (Z.eqb_spec y 0); [contradiction|].
    specialize (O x y IN). f_equal. unfold euclid_div. rewrite Z.sgn_pos, Z.abs_eq by lia. lia.
Qed.
Print Assumptions C58_solver_partial.

(** On arguments of the annotated types, an operator returns a value, unless a
    divisor is zero. *)
Theorem C58_total : forall f fs ks args, In (fs, ks) signatures -> In f fs -> kinds args = map Some ks ->
  (forall x y, In (x, y) (divided f args) -> y <> 0) ->
  exists v, py_dsl f args = Ok v.
Proof.
  intros f fs ks args H F K O.
  assert (Z2 : forall (g : Z -> Z -> Z) l r, exists v, zipped (fun x y => Ok (g x y)) l r = Ok v)
    by (intros; apply zipped_total; intros; eexists; reflexivity).
  assert (Z1 : forall (g : Z -> Z) l, exists v, each (fun x => Ok (g x)) l = Ok v)
    by (intros; apply each_total; intros; eexists; reflexivity).
  assert (FD : forall x y, y <> 0 -> exists z, floordiv x y = Ok z)
    by (intros x y N; unfold floordiv; destruct (Z.eqb_spec y 0); [contradiction | eexists; reflexivity]).
  assert (FIN : forall A (g : A -> dval) (r : res A), (exists v, r = Ok v) -> exists d, (v <- r ;; Ok (g v)) = Ok d)
    by (intros A g r (w & ->); eexists; reflexivity).
  cbn [signatures In] in H.
  repeat (destruct H as [H|H]; [injection H as <- <-|]); try contradiction; cbn [In] in F;
    (destruct args as [|[a|b|l|m|t] args]; try discriminate K);
    (destruct args as [|[a'|b'|l'|m'|t'] args]; try discriminate K);
    try (destruct args as [|[a''|b''|l''|m''|t''] args]; try discriminate K);
    try (destruct args; try discriminate K);
    repeat (destruct F as [F|F]; [subst f|]); try contradiction;
    try (eexists; reflexivity); cbn [py_dsl String.eqb Ascii.eqb Bool.eqb]; apply FIN.
  all: try (apply Z2); try (apply Z1).
  - apply zipped_total. intros x y IN. apply FD. exact (O x y IN).
  - apply zipped_total. intros. apply Z2.
  - apply zipped_total. intros. apply Z2.
  - apply zipped_total. intros. apply Z2.
  - apply zipped_total. intros r s IN. apply zipped_total. intros x y J. apply FD. apply (O x y). cbn.
    eapply in_flat2; eauto.
  - apply each_total. intros x IN. apply FD. apply (O x a). cbn. apply in_map_iff. eauto.
  - apply each_total. intros x IN. apply FD. apply (O a x). cbn. apply in_map_iff. eauto.
  - apply each_total. intros. apply Z1.
  - apply each_total. intros. apply Z1.
  - apply each_total. intros. apply Z1.
  - apply each_total. intros r IN. apply each_total. intros x J. apply FD. apply (O x a). cbn.
    apply in_map_iff. exists x. split; auto. apply in_concat. eauto.
  - apply each_total. intros. apply Z1.
  - apply each_total. intros r IN. apply each_total. intros x J. apply FD. apply (O a x). cbn.
    apply in_map_iff. exists x. split; auto. apply in_concat. eauto.
  - rewrite py_mvm_is. eexists; reflexivity.
Qed.
Print Assumptions C58_total.

(** The operators with a function argument, for a function [h] of the IR that has the
    values of the Python function [g] on the elements it is applied to. *)
Theorem C58_functions_partial : forall e I h, backend e I -> dsl I ->
  (forall g l v, py_vec_map l g = Ok v ->
     (forall x z, In x l -> g x = Ok z -> i_call I h [VInt x] = Some (VInt z)) ->
     i_call I "vec_map" [vl l; VFn h] = Some (vl v)) /\
  (forall g l r v, py_selection_two_args l r g = Ok v ->
     (forall x y z, In (x, y) (combine l r) -> g x y = Ok z -> i_call I h [VInt x; VInt y] = Some (VInt z)) ->
     i_call I "selection_two_args" [vl l; vl r; VFn h] = Some (vl v)) /\
  (forall g m n v, py_matrix_selection_two_args m n g = Ok v ->
     (forall l r x y z, In (l, r) (combine m n) -> In (x, y) (combine l r) -> g x y = Ok z ->
        i_call I h [VInt x; VInt y] = Some (VInt z)) ->
     (e = true \/ full_rows (DM v)) ->
     i_call I "matrix_selection_two_args" [vm m; vm n; VFn h] = Some (vm v)).
Proof.
  intros e I h B D. pose proof (backend_lib _ _ B) as L. split; [|split].
  - intros g. exact (map1 e I L h g (D vec_map ltac:(decl))).
  - intros g. exact (selection2 e I L h g (D selection_two_args ltac:(decl))).
  - intros g. exact (matrix_selection2 e I L h g (D selection_two_args ltac:(decl)) (D matrix_selection_two_args ltac:(decl))).
Qed.
Print Assumptions C58_functions_partial.

(** [integer_exp] is the solver's function, and below 64 Racket's. *)
Theorem C58_exp : forall S n, prelude_core S ->
  py_integer_exp n = s_exp S n /\ py_integer_exp n = 3 ^ Z.max 0 n mod 64 /\
  (n < 64 -> integer_exp_noerr default_fuel n = Some (py_integer_exp n)).
Proof.
  intros S n C.
  assert (E : py_integer_exp n = 3 ^ Z.max 0 n mod 64).
  { unfold py_integer_exp. destruct (Z.leb_spec n 0).
    - rewrite Z.max_l by lia. reflexivity.
    - rewrite Z.max_r by lia. rewrite py_exp_nat_is, Z2Nat.id by lia. reflexivity. }
  rewrite E. split; [now rewrite (exp_is S C)|]. split; [reflexivity|].
  intros N. rewrite exp_noerr_is; [reflexivity | unfold default_fuel; lia].
Qed.
Print Assumptions C58_exp.

(** [matrix_transpose] (claim: it returns the transposed matrix).  False for every
    matrix with a row: the recursion goes on until the rows are empty, and [firsts]
    raises IndexError. *)
Theorem C58_transpose_refuted : forall r m,
  exists fuel0, forall fuel, (fuel0 <= fuel)%nat -> py_matrix_transpose fuel (r :: m) = Err ExIndex.
Proof.
  intros r m. exists (S (Datatypes.length r)). intros fuel H.
  apply (transpose_raises (Datatypes.length r)); [reflexivity | lia].
Qed.
Print Assumptions C58_transpose_refuted.

(** [integer_sqrt] (claim: it returns the integer square root).  False: no recursion
    depth is enough for negative numbers and for 2 to 64; for all other numbers the
    result is 1. *)
Theorem C58_sqrt_refuted : forall n,
  ((n < 0 \/ 1 < n <= 64) -> forall fuel, py_integer_sqrt fuel n = Err ExFuel) /\
  (n = 0 \/ n = 1 \/ 64 < n -> forall fuel, py_integer_sqrt (S fuel) n = Ok 1).
Proof. intros n. split; [apply sqrt_loops | intros H fuel; now apply sqrt_one]. Qed.
Print Assumptions C58_sqrt_refuted.

(** The conditions of [C58_values_partial] are needed.  A negative divisor, in every
    model of the solver's prelude: *)
Theorem C58_division_refuted : forall S I, smt_model S I -> dsl I ->
  py_dsl "vec_elemwise_div" [DL [7]; DL [-2]] = Ok (DL [-4]) /\
  i_call I "vec_elemwise_div" [vl [7]; vl [-2]] = Some (vl [-3]).
Proof.
  intros S I M D. split; [reflexivity|].
  assert (B : backend true I) by now exists S.
  pose proof (C23_vec_elemwise true I "elemwise_div" _ B D (or_intror (or_intror (or_intror (or_introl eq_refl)))) [7] [-2] eq_refl) as X.
  change ("vec_" ++ "elemwise_div") with "vec_elemwise_div" in X. rewrite X.
  unfold pointwise. cbn [combine mapO fst snd]. rewrite (sm_div _ _ M). reflexivity.
Qed.
Print Assumptions C58_division_refuted.

(** A negative bound, in both backends: Python counts from the end. *)
Theorem C58_slice_refuted : forall e I, backend e I ->
  py_dsl "vec_slice" [DL [1; 2; 3]; DZ 0; DZ (-1)] = Ok (DL [1; 2]) /\
  i_call I "vec_slice" [vl [1; 2; 3]; VInt 0; VInt (-1)] = Some (vl []).
Proof.
  intros e I B. split; [reflexivity|]. destruct e.
  - destruct B as (S & M). pose proof (sm_lists _ _ M "vec_slice" [DL [1; 2; 3]; DZ 0; DZ (-1)] _ eq_refl) as X.
    cbn [map emb] in X. rewrite X. now rewrite (vec_slice_is S (sm_core _ _ M)).
  - exact (B "vec_slice" [DL [1; 2; 3]; DZ 0; DZ (-1)] _ eq_refl).
Qed.
Print Assumptions C58_slice_refuted.

(** An empty row, in Racket: [matrix-prepend] drops it. *)
Theorem C58_rows_refuted : exists I, backend false I /\ dsl I /\
  py_dsl "matrix_scalar_add" [DZ 1; DM [[]; [2]]] = Ok (DM [[]; [3]]) /\
  i_call I "matrix_scalar_add" [VInt 1; vm [[]; [2]]] = Some (vm [[3]]).
Proof.
  exists demo_rkt. split; [apply demo_rkt_backend|]. split; [apply demo_rkt_dsl|]. split; vm_compute; reflexivity.
Qed.
Print Assumptions C58_rows_refuted.

(** ** cases that meet the hypotheses *)

(** division, matrices of different shapes, slices; in both backends *)
Example C58_values_case_smt : backend true demo_smt /\ dsl demo_smt /\
  py_dsl "matrix_elemwise_div" [DM [[7; -7]; [1]]; DM [[2; 2]; [3; 4]]] = Ok (DM [[3; -4]; []]) /\
  i_call demo_smt "matrix_elemwise_div" [vm [[7; -7]; [1]]; vm [[2; 2]; [3; 4]]] = Some (vm [[3; -4]; []]) /\
  py_dsl "matrix_vec_mul" [DM [[1; 2]; [3; 4]; [5]; [6; 7]]; DL [10; 1]] = Ok (DL [12; 34]) /\
  py_dsl "matrix_col_slice" [DM [[1; 2; 3]; [4]]; DZ 1; DZ 3] = Ok (DM [[2; 3]; []]).
Proof.
  split; [apply demo_smt_backend|]. split; [apply demo_smt_dsl|]. split; [reflexivity|]. split; [|split; reflexivity].
  refine (C58_solver_partial std demo_smt "matrix_elemwise_div" [DM [[7; -7]; [1]]; DM [[2; 2]; [3; 4]]] _
    demo_smt_model demo_smt_dsl eq_refl _ Logic.I).
  intros x y H. cbn in H. repeat (destruct H as [[= <- <-]|H]; [lia|]). contradiction.
Qed.
Example C58_values_case_rkt : backend false demo_rkt /\ dsl demo_rkt /\
  py_dsl "scalar_matrix_sub" [DZ 10; DM [[1; 2]; [4]]] = Ok (DM [[9; 8]; [6]]) /\
  i_call demo_rkt "scalar_matrix_sub" [VInt 10; vm [[1; 2]; [4]]] = Some (vm [[9; 8]; [6]]) /\
  py_dsl "reduce_max" [DL [3; 9; -1]] = Ok (DZ 9) /\ py_dsl "reduce_max" [DL []] = Ok (DZ (-32)).
Proof.
  split; [apply demo_rkt_backend|]. split; [apply demo_rkt_dsl|]. split; [reflexivity|]. split; [|split; reflexivity].
  refine (C58_values_partial false demo_rkt "scalar_matrix_sub" [DZ 10; DM [[1; 2]; [4]]] _
    demo_rkt_backend demo_rkt_dsl eq_refl _ Logic.I (or_intror _)).
  - intros x y [].
  - repeat (constructor; try discriminate).
Qed.
(** the selection of llmlift_scripts/correct_sols.py:93 *)
Example C58_functions_case :
  py_matrix_selection_two_args [[1; 5]] [[3; 4]] (fun x y => Ok (py_ite_int (x <? y) y x)) = Ok [[3; 5]] /\
  i_call demo_smt "matrix_selection_two_args" [vm [[1; 5]]; vm [[3; 4]]; VFn "larger"] = Some (vm [[3; 5]]).
Proof.
  split; [reflexivity|].
  refine (proj2 (proj2 (C58_functions_partial true demo_smt "larger" demo_smt_backend demo_smt_dsl))
    (fun x y => Ok (py_ite_int (x <? y) y x)) [[1; 5]] [[3; 4]] [[3; 5]] eq_refl _ (or_introl eq_refl)).
  intros l r x y z H H2 H3. cbn in H. destruct H as [[= <- <-]|[]]. cbn in H2.
  destruct H2 as [[= <- <-]|[[= <- <-]|[]]]; injection H3 as <-; vm_compute; reflexivity.
Qed.
Example C58_total_case : In (["vec_slice"], [KL; KZ; KZ]) signatures /\
  kinds [DL [1; 2]; DZ 0; DZ 1] = map Some [KL; KZ; KZ] /\
  py_dsl "vec_scalar_div" [DZ 0; DL [1]] = Err ExValue /\ divided "vec_scalar_div" [DZ 0; DL [1]] = [(1, 0)].
Proof. split; [do 6 right; now left|]. repeat split. Qed.
Example C58_exp_case : prelude_core std /\ py_integer_exp 5 = 51 /\ py_integer_exp (-3) = 1.
Proof. split; [exact std_core|]. split; reflexivity. Qed.
Example C58_transpose_case : py_matrix_transpose 100 [[1; 2]; [3; 4]] = Err ExIndex /\ py_matrix_transpose 1 [] = Ok [].
Proof. split; reflexivity. Qed.
Example C58_sqrt_case : py_integer_sqrt 200 16 = Err ExFuel /\ py_integer_sqrt 1 100 = Ok 1.
Proof. split; vm_compute; reflexivity. Qed.
