(** C51: a kernel that is generated for Gaudi stores the elements of the summary's value.
    C52: the description of its parameters that the glue code gives. *)

From Coq Require Import String Ascii List ZArith Bool Lia QArith Qround.
From Verif Require Import Ast Dict Semantics SmtPrint UtilProofs IrProofs LibSem RktModel SmtPrelude SmtProofs TensDemo Properties_Smt Properties_Tens NpModel NpSem Properties_Np
  GdModel GdSem GdProofs1 GdProofs2 GdProofs3 GdProofs4 GdProofs5 GdProofs6 GdProofs7 GdProofs8 GdProofs9 GdProofs10.
Import ListNotations.
Local Open Scope nat_scope.
Local Open Scope string_scope.
Local Open Scope list_scope.

(** ** the elements that are stored *)

(** the elements that the points of the index space stand for: [len] columns each, and one
    row (for vectors only row 0) *)
Definition in_space (d : dtype) (k : kernel) (i0 ni j0 nj c row : nat) : Prop :=
  let len := match d with UINT_8 => 256 | INT32 | FLOAT => 64 end in
  i0 * len <= c < (i0 + ni) * len /\ match k_shape k with TwoDim => j0 <= row < j0 + nj | _ => row = 0 end.

Lemma space_iff d k i0 ni j0 nj c row :
  existsb (fun i => covered (vec_len d) i c && match k_shape k with TwoDim => existsb (Nat.eqb row) (seq j0 nj) | _ => Nat.eqb row 0 end) (seq i0 ni) = true <->
  in_space d k i0 ni j0 nj c row.
Proof.
  unfold in_space. replace (match d with UINT_8 => 256 | INT32 | FLOAT => 64 end) with (vec_len d) by (destruct d; reflexivity).
  assert (Pos : 0 < vec_len d) by (destruct d; cbn; lia). generalize dependent (vec_len d). intros len Pos.
  assert (R : match k_shape k with TwoDim => existsb (Nat.eqb row) (seq j0 nj) | _ => Nat.eqb row 0 end = true <-> match k_shape k with TwoDim => j0 <= row < j0 + nj | _ => row = 0 end).
  { destruct (k_shape k); try apply Nat.eqb_eq. rewrite existsb_exists. split.
    - intros (j & J & E). apply in_seq in J. apply Nat.eqb_eq in E. lia.
    - intros H. exists row. split; [apply in_seq; lia|apply Nat.eqb_refl]. }
  rewrite existsb_exists. split.
  - intros (i & J & E). apply andb_prop in E as (E & Er). split; [|apply R, Er]. apply in_seq in J. unfold covered in E. apply andb_prop in E as (E1 & E2). apply Nat.leb_le in E1. apply Nat.ltb_lt in E2. nia.
  - intros (H & Er). exists (c / len). assert (Dm := Nat.div_mod c len ltac:(lia)). assert (Mb := Nat.mod_upper_bound c len ltac:(lia)). split; [apply in_seq; nia|]. apply andb_true_intro. split; [|apply R, Er].
    unfold covered. apply andb_true_intro. split; [apply Nat.leb_le; nia|apply Nat.ltb_lt; nia].
Qed.

(** Full statement (false, see below): for every summary and all arguments, the kernel runs
    and stores the elements of the value.  Missing: summaries outside [summary_suits]
    (GdSem.v: for example reductions, conditions, elements outside the type, inexact
    quotients of elements that are not bytes), kernels that do not run, names that clash
    with generated ones, and the rounding of floating point numbers.

    If the kernel runs, then each element of the value that the index space stands for is
    stored at its place, and nothing else is changed. *)
Theorem C51_kernel_partial fns d n ps k body I r vs v i0 ni j0 nj out out' :
  gaudi_kernel fns d n ps = Ok k -> decl_body ps = Ok body -> tensor_like fns I ->
  (forall m, r (fresh m) = None) -> r "sum" = None -> called_with r (decl_params ps) vs ->
  summary_suits fns d I r body -> eval I r body = Some (emb v) -> proper v ->
  run k (scalar_args (k_params k) vs) (tensor_args (k_params k) vs) i0 ni j0 nj out = Some out' ->
  forall c row,
    (in_space d k i0 ni j0 nj c row -> forall z, elem v c row = Some z -> (out' c row == inject_Z z)%Q) /\
    (~ in_space d k i0 ni j0 nj c row -> out' c row = out c row).
Proof.
  intros K B TL Fr Fs Cw S E P R c row. destruct (kernel_writes fns d I r vs v n ps k body i0 ni j0 nj out out' K B TL Fr Fs Cw S E P R c row) as (W & U).
  rewrite <- space_iff. split; [exact W|]. intros N. apply U. destruct (existsb _ _); [contradiction N; reflexivity|reflexivity].
Qed.
Print Assumptions C51_kernel_partial.

(** Whether it runs does not depend on the arguments and the index space, unless scalars are
    divided: a kernel that once runs for arguments of these kinds (for example one matrix and
    one number) always does, and then always stores the right elements. *)
Theorem C51_runs_partial fns d n ps k vs i0 ni j0 nj out out' :
  gaudi_kernel fns d n ps = Ok k -> forallb safe (k_body k) = true ->
  0 < ni -> 0 < nj -> run k (scalar_args (k_params k) vs) (tensor_args (k_params k) vs) i0 ni j0 nj out = Some out' ->
  forall vs2 i2 ni2 j2 nj2 out2, Forall2 same_kind vs vs2 ->
  exists out3, run k (scalar_args (k_params k) vs2) (tensor_args (k_params k) vs2) i2 ni2 j2 nj2 out2 = Some out3 /\
    forall body I r v, decl_body ps = Ok body -> tensor_like fns I -> (forall m, r (fresh m) = None) -> r "sum" = None -> called_with r (decl_params ps) vs2 ->
      summary_suits fns d I r body -> eval I r body = Some (emb v) -> proper v ->
      forall c row z, in_space d k i2 ni2 j2 nj2 c row -> elem v c row = Some z -> (out3 c row == inject_Z z)%Q.
Proof.
  intros K N Pi Pj R vs2 i2 ni2 j2 nj2 out2 F.
  assert (Sh : k_shape k <> Reduction). { intros Sh. rewrite (reduction_stuck _ _ _ _ _ _ _ i0 ni j0 nj out K Sh Pi) in R. discriminate. }
  destruct (run_same k vs vs2 i0 ni j0 nj out out' i2 ni2 j2 nj2 out2 N Sh F Pi Pj R) as (out3 & R3). exists out3. split; [exact R3|].
  intros body I r v B TL Fr Fs Cw S E P c row z Sp Z. exact (proj1 (C51_kernel_partial _ _ _ _ _ _ _ _ _ _ _ _ _ _ _ _ K B TL Fr Fs Cw S E P R3 c row) Sp z Z).
Qed.
Print Assumptions C51_runs_partial.

(** ** the names of its variables *)

(** Each variable is declared once, with a generated name; an instruction reads only names
    that are there from the start ([src_of], GdSem.v) or declared before; the result is
    declared too (or it is the sum of a reduction). *)
Theorem C51_names fns d n ps k body : gaudi_kernel fns d n ps = Ok k -> decl_body ps = Ok body ->
  (forall p i q x, k_body k = p ++ i :: q -> declares i x -> (exists m, x = fresh m) /\ forall j, In j (p ++ q) -> ~ declares j x) /\
  (forall p i q x, k_body k = p ++ i :: q -> In x (ireads i) -> src_of fns body x \/ exists j, In j p /\ declares j x) /\
  (k_result k = "sum" \/ exists i, In i (k_body k) /\ declares i (k_result k)).
Proof. apply kernel_names. Qed.
Print Assumptions C51_names.

(** ** cases *)

Definition mi : ty := TMatrix TInt.
Definition call2 (f : string) (a b : expr) : expr := Node KCall mi [Atom (PStr f); a; b].
(** products of pixels, divided by 32: the products need more than a byte *)
Definition blend_body : expr := call2 "matrix_scalar_div" (lit 32) (call2 "matrix_elemwise_mul" (var "base" mi) (var "active" mi)).
Definition blend : expr := Node KFnDecl (TFn [mi; mi; mi]) [Atom (PStr "blend_ps"); blend_body; var "base" mi; var "active" mi].
Definition blend_args : list dval := [DM [[1; 2; 3]; [40; 50; 6]]; DM [[10; 20; 30]; [4; 5; 6]]]%Z.
Definition blend_env : env := frame [] ["base"; "active"] (map emb blend_args).
Definition zero : tensor := fun _ _ => 0%Q.
(** the elements of a tensor *)
Definition grid (rows cols : nat) (t : option tensor) : option (list (list Q)) :=
  option_map (fun t : tensor => map (fun r => map (fun c => Qred (t c r)) (seq 0 cols)) (seq 0 rows)) t.
Definition go (fns : list (string * expr)) (d : dtype) (ps : expr) (vs : list dval) (rows cols : nat) : option (list (list Q)) :=
  match gaudi_kernel fns d 20 ps with
  | Ok k => grid rows cols (run k (scalar_args (k_params k) vs) (tensor_args (k_params k) vs) 0 1 0 rows zero)
  | Err _ => None
  end.

Lemma blend_tensor : tensor_like [] demo_smt.
Proof.
  apply (C45_solver std); [apply demo_smt_model|apply demo_smt_dsl|..].
  - intros a b H. cbn. unfold smt_mod. rewrite (proj2 (Z.eqb_neq b 0) H). reflexivity.
  - intros h p q c a b Ch. discriminate Ch.
Qed.
Definition other (x : string) : bool := match x with String "v" _ => false | _ => true end.
Lemma frame_fresh fns xs vs : forallb other (xs ++ map fst fns) = true -> forall m, frame fns xs vs (fresh m) = None.
Proof.
  intros H m. rewrite forallb_app in H. apply andb_prop in H as (H1 & H2). assert (F : forall x l, forallb other l = true -> In x l -> x <> fresh m).
  { intros x l Hl X ->. rewrite forallb_forall in Hl. specialize (Hl _ X). discriminate Hl. }
  unfold frame. replace (smem (fresh m) (map fst fns)) with false.
  2: { symmetry. destruct (smem _ _) eqn:E; [|reflexivity]. apply smem_cases in E. exfalso. exact (F _ _ H2 E eq_refl). }
  assert (N : forall vs : list val, named xs vs (fresh m) = None); [|rewrite N; reflexivity].
  clear H2 vs. induction xs as [|x xs IH]; intros [|v vs]; try reflexivity. cbn [named]. cbn [forallb] in H1. pose proof (F x (x :: xs) H1 ltac:(cbn; auto)) as Nx.
  apply andb_prop in H1 as (_ & H1). destruct (String.eqb_spec (fresh m) x); [congruence|]. apply IH; assumption.
Qed.

Ltac value v := exists v; repeat split; try (cbn; lia); try reflexivity; try (repeat constructor; cbn; lia).
Lemma blend_suits : summary_suits [] UINT_8 demo_smt blend_env blend_body.
Proof.
  split; [value (DM [[0; 1; 2]; [5; 7; 1]]%Z)|]. split; [reflexivity|]. cbn [String.eqb]. split; [reflexivity|].
  change (fst (wide_operands UINT_8 "matrix_scalar_div")) with false. change (snd (wide_operands UINT_8 "matrix_scalar_div")) with true. split; [|split].
  - split; [value (DZ 32)|exact Logic.I].
  - split; [value (DM [[10; 40; 90]; [160; 250; 36]]%Z)|]. split; [reflexivity|]. cbn [String.eqb]. split; [reflexivity|].
    split; [split; [value (DM [[1; 2; 3]; [40; 50; 6]]%Z)|exact Logic.I]|]. split; [split; [value (DM [[10; 20; 30]; [4; 5; 6]]%Z)|exact Logic.I]|].
    exists (DM [[1; 2; 3]; [40; 50; 6]]%Z), (DM [[10; 20; 30]; [4; 5; 6]]%Z), (DM [[10; 40; 90]; [160; 250; 36]]%Z). repeat split; reflexivity.
  - exists (DZ 32), (DM [[10; 40; 90]; [160; 250; 36]]%Z), (DM [[0; 1; 2]; [5; 7; 1]]%Z). repeat split; reflexivity.
Qed.

Lemma lighten_suits : summary_suits case_fns UINT_8 demo_smt (frame case_fns (map fst case_params) (map emb case_args)) case_body.
Proof.
  split; [value (DM [[13; 15]; [17; 19]]%Z)|]. split; [reflexivity|]. cbn [String.eqb]. split; [reflexivity|].
  change (fst (wide_operands UINT_8 "matrix_scalar_add")) with false. change (snd (wide_operands UINT_8 "matrix_scalar_add")) with false. split; [|split].
  - split; [value (DZ 10)|exact Logic.I].
  - split; [value (DM [[3; 5]; [7; 9]]%Z)|]. split; [reflexivity|]. split; [split; [value (DM [[1; 5]; [7; 2]]%Z)|exact Logic.I]|]. split; [split; [value (DM [[3; 4]; [6; 9]]%Z)|exact Logic.I]|].
    split; [reflexivity|]. split; [repeat constructor|]. split.
    { intros x y v E. change (chosen case_fns) with (chosen [("select_two_args", sel_fn)]) in *. cbn in E. destruct (Z.ltb y x); injection E as <-; eauto. }
    exists [[1; 5]; [7; 2]]%Z, [[3; 4]; [6; 9]]%Z. repeat split; try reflexivity.
    all: cbn in H.
    all: assert (R : (0 <= x <= 255 /\ 0 <= y <= 255)%Z) by (repeat (destruct H as [H|H]; [injection H as <- <-; lia|]); destruct H).
    all: clear H.
    + exists (DZ x). repeat split; cbn; lia.
    + exists (DZ y). repeat split; cbn; lia.
    + repeat constructor; [exists x|exists y]; reflexivity.
    + exists (DZ x). repeat split; cbn; lia.
    + exists (DZ y). repeat split; cbn; lia.
  - exists (DZ 10), (DM [[3; 5]; [7; 9]]%Z), (DM [[13; 15]; [17; 19]]%Z). repeat split; try reflexivity.
Qed.

Example C51_case :
  match gaudi_kernel [] UINT_8 20 blend with Ok k => forallb safe (k_body k) | Err _ => false end = true /\ decl_body blend = Ok blend_body /\ tensor_like [] demo_smt /\
  (forall m, blend_env (fresh m) = None) /\ blend_env "sum" = None /\ called_with blend_env (decl_params blend) blend_args /\
  summary_suits [] UINT_8 demo_smt blend_env blend_body /\
  eval demo_smt blend_env blend_body = Some (emb (DM [[0; 1; 2]; [5; 7; 1]]%Z)) /\
  go [] UINT_8 blend blend_args 2 3 = Some [[0; 1; 2]; [5; 7; 1]]%Q /\
  match gaudi_kernel [] UINT_8 20 blend with Ok k => kernel_text k | Err e => Err e end =
    Ok ["void main(tensor base, tensor active, tensor blend_ps_rv) {"; "int5 index_space_start = get_index_space_offset();";
        "int5 index_space_end = index_space_start + get_index_space_size();"; "int5 inputCoord = { 0 };"; "int5 outputCoord = { 0 };"; "unsigned vec_len = 256;";
        "for(int i = index_space_start[0]; i < index_space_end[0]; i++) {"; "#pragma loop_unroll(4)";
        "for (int j = index_space_start[1]; j < index_space_end[1]; j++) {"; "inputCoord[0] = outputCoord[0] = (i * vec_len);"; "inputCoord[1] = outputCoord[1] = j;";
        "uchar256 v1 = v_u8_ld_tnsr_b(inputCoord, base);"; "uchar256 v2 = v_u8_ld_tnsr_b(inputCoord, active);"; "uint256 v3 = v_u8_mul_b(v1, v2);";
        "float256 v4 = convert_uint256_to_float256(v3, SW_LINEAR);"; "float64 v0 = 32;"; "float64 v5 = v_reciprocal_fast_f32(v0);"; "float256 v6;";
        "v6.v1 = v_f32_mul_b(v4.v1, v5);"; "v6.v2 = v_f32_mul_b(v4.v2, v5);"; "v6.v3 = v_f32_mul_b(v4.v3, v5);"; "v6.v4 = v_f32_mul_b(v4.v4, v5);";
        "uchar256 v11 = convert_float256_to_uchar256(v6, SW_RD);"; "v_u8_st_tnsr(outputCoord, blend_ps_rv, v11);"; "}"; "}"; "}"].
Proof.
  split; [vm_compute; reflexivity|]. split; [reflexivity|]. split; [apply blend_tensor|]. split; [apply frame_fresh; reflexivity|]. split; [reflexivity|].
  split; [repeat constructor; eexists; repeat split; reflexivity|]. split; [apply blend_suits|]. split; [vm_compute; reflexivity|]. split; vm_compute; reflexivity.
Qed.
(** a selection *)
Example C51_case_select :
  tensor_like case_fns demo_smt /\ (forall m, frame case_fns (map fst case_params) (map emb case_args) (fresh m) = None) /\
  called_with (frame case_fns (map fst case_params) (map emb case_args)) (decl_params case_fn) case_args /\
  summary_suits case_fns UINT_8 demo_smt (frame case_fns (map fst case_params) (map emb case_args)) case_body /\
  eval demo_smt (frame case_fns (map fst case_params) (map emb case_args)) case_body = Some (emb (DM [[13; 15]; [17; 19]]%Z)) /\
  go case_fns UINT_8 case_fn case_args 2 2 = Some [[13; 15]; [17; 19]]%Q.
Proof.
  split; [apply case_tensor|]. split; [apply frame_fresh; reflexivity|]. split; [repeat constructor; eexists; repeat split; reflexivity|]. split; [apply lighten_suits|]. split; vm_compute; reflexivity.
Qed.

(** ** where the full statement is false *)

(** No reduction runs: the first round reads the sum, which has no value yet. *)
Theorem C51_reduction_refuted fns d n ps k scalars tensors i0 ni j0 nj out :
  gaudi_kernel fns d n ps = Ok k -> k_shape k = Reduction -> 0 < ni -> run k scalars tensors i0 ni j0 nj out = None.
Proof. apply reduction_stuck. Qed.
Print Assumptions C51_reduction_refuted.
Definition total : expr := Node KFnDecl (TFn [TInt; TList TInt]) [Atom (PStr "total_ps"); Node KCall TInt [Atom (PStr "reduce_sum"); var "xs" (TList TInt)]; var "xs" (TList TInt)].
Example C51_reduction_case : match gaudi_kernel [] INT32 20 total with
  | Ok k => k_shape k = Reduction /\ mapR instr_str (k_body k) = Ok ["int64 v0 = v_i32_ld_tnsr_b(inputCoord, xs);"; "sum = v_i32_add_b(v_i32_reduce_add(v0), sum);"]
  | Err _ => False
  end.
Proof. vm_compute. split; reflexivity. Qed.

(** The first branch of a conditional is always taken; the other one does not matter. *)
Definition cond (t tc : ty) (f : string) (rest : list expr) (a b : expr) : expr := Node KIte t [Node KCall tc (Atom (PStr f) :: rest); a; b].
Definition never : expr := Node KFnDecl (TFn [TBool]) [Atom (PStr "never"); blit false].
Definition branch : expr := Node KFnDecl (TFn [mi; mi; mi]) [Atom (PStr "branch_ps"); cond mi TBool "never" [] (var "base" mi) (var "active" mi); var "base" mi; var "active" mi].
Definition with_never : interp := {| i_div := i_div demo_smt; i_mod := i_mod demo_smt;
  i_call := fun f vs => if String.eqb f "never" then Some (VBool false) else i_call demo_smt f vs |}.
Theorem C51_condition_refuted :
  (forall fns d n t tc f rest a b b' ov vars s, codegen fns d n (cond t tc f rest a b) ov vars s = codegen fns d n (cond t tc f rest a b') ov vars s) /\
  (i_call with_never "never" [] = eval with_never (fun _ => None) (blit false) /\
   eval with_never blend_env (cond mi TBool "never" [] (var "base" mi) (var "active" mi)) = Some (emb (DM [[10; 20; 30]; [4; 5; 6]]%Z)) /\
   go [("never", never)] UINT_8 branch blend_args 2 3 = Some [[1; 2; 3]; [40; 50; 6]]%Q).
Proof.
  split; [|repeat split; vm_compute; reflexivity].
  intros. destruct n as [|n]; [reflexivity|]. cbn [codegen codegen_step cond condition]. destruct (body_type d t); [|reflexivity]. cbn [bindR]. destruct (dget fns f) as [g|]; [|reflexivity]. destruct (decl_body g); reflexivity.
Qed.
Print Assumptions C51_condition_refuted.

(** Elements of 32 bits: a product that is divided is converted by a function that does not
    exist, so the kernel does not run; a quotient is rounded to the nearest integer. *)
Definition halves : expr := Node KFnDecl (TFn [mi; mi; mi]) [Atom (PStr "half_ps"); call2 "matrix_elemwise_div" (var "base" mi) (var "active" mi); var "base" mi; var "active" mi].
Theorem C51_int32_refuted :
  (forall k vs i0 ni j0 nj out, gaudi_kernel [] INT32 20 blend = Ok k -> Forall2 same_kind vs blend_args -> 0 < ni -> 0 < nj ->
     run k (scalar_args (k_params k) vs) (tensor_args (k_params k) vs) i0 ni j0 nj out = None) /\
  (eval demo_smt (frame [] ["base"; "active"] (map emb [DM [[7; 8]]; DM [[2; 2]]]%Z)) (call2 "matrix_elemwise_div" (var "base" mi) (var "active" mi)) = Some (emb (DM [[3; 4]]%Z)) /\
   go [] INT32 halves [DM [[7; 8]]; DM [[2; 2]]]%Z 1 2 = Some [[4; 4]]%Q).
Proof.
  split; [|split; vm_compute; reflexivity]. intros k vs i0 ni j0 nj out K F Pi Pj. destruct (run k _ _ i0 ni j0 nj out) as [out'|] eqn:R; [|reflexivity]. exfalso.
  assert (N : match gaudi_kernel [] INT32 20 blend with Ok k => forallb safe (k_body k) | Err _ => false end = true) by (vm_compute; reflexivity). rewrite K in N. assert (G : go [] INT32 blend blend_args 2 3 = None) by (vm_compute; reflexivity).
  destruct (C51_runs_partial _ _ _ _ _ _ _ _ _ _ _ _ K N Pi Pj R blend_args 0 1 0 2 zero F) as (out3 & R3 & _).
  unfold go in G. rewrite K, R3 in G. discriminate G.
Qed.
Print Assumptions C51_int32_refuted.

(** Operators: operands after the second are dropped; the remainder of tensors becomes a
    division. *)
Theorem C51_operands_refuted :
  (forall fns d n k t a b rest ov vars s, c_op k <> None -> codegen fns d n (Node k t (a :: b :: rest)) ov vars s = codegen fns d n (Node k t [a; b]) ov vars s) /\
  (forall fns d n t a b ov vars s r1 r2 t1 t2,
     codegen fns d n a None vars s = Ok r1 -> codegen fns d n b None vars (fst r1) = Ok r2 ->
     i_type (snd (snd r1)) = Some t1 -> i_type (snd (snd r2)) = Some t2 -> is_primitive t1 && is_primitive t2 = false ->
     codegen fns d (S n) (Node KMod t [a; b]) ov vars s = codegen fns d (S n) (Node KDiv t [a; b]) ov vars s) /\
  (eval demo_smt blend_env (Node KAdd TInt [lit 1; lit 2; lit 3]) = Some (VInt 6) /\
   go [] UINT_8 (Node KFnDecl (TFn [mi; mi]) [Atom (PStr "f_ps"); call2 "matrix_scalar_add" (Node KAdd TInt [lit 1; lit 2; lit 3]) (var "base" mi); var "base" mi]) [DM [[1; 2]]]%Z 1 2 = Some [[4; 5]]%Q).
Proof.
  split; [|split; [|split; vm_compute; reflexivity]].
  - intros. destruct n as [|n]; [reflexivity|]. destruct k; try (exfalso; apply H; reflexivity); reflexivity.
  - intros fns d n t a b ov vars s r1 r2 t1 t2 E1 E2 T1 T2 P. cbn [codegen codegen_step]. destruct (body_type d t); [|reflexivity]. cbn [bindR arg nth_error]. rewrite E1. cbn [bindR]. rewrite E2. cbn [bindR].
    unfold type_of_instr. rewrite T1, T2. cbn [bindR]. rewrite P. reflexivity.
Qed.
Print Assumptions C51_operands_refuted.

(** Names: a selection from a matrix with the name of the function's parameter never ends; a
    number with a generated name is read before it has a value. *)
Definition chosen_ps (x y : string) : expr := Node KFnDecl (TFn [mi; mi; mi])
  [Atom (PStr "f_ps"); Node KCall mi [Atom (PStr "matrix_selection_two_args"); var x mi; var y mi; var "select_two_args" (TFn [TInt; TInt; TInt])]; var x mi; var y mi].
Definition scaled (x : string) : expr := Node KFnDecl (TFn [mi; TInt; mi]) [Atom (PStr "f_ps"); call2 "matrix_scalar_add" (var x TInt) (var "base" mi); var x TInt; var "base" mi].
Theorem C51_clash_refuted :
  (forall n k, gaudi_kernel case_fns UINT_8 n (chosen_ps "int_x" "b") <> Ok k) /\ go case_fns UINT_8 (chosen_ps "a" "b") [DM [[1; 5]]; DM [[3; 4]]]%Z 1 2 = Some [[3; 5]]%Q /\
  go [] UINT_8 (scaled "v0") [DZ 1; DM [[1; 5]]]%Z 1 2 = None /\ go [] UINT_8 (scaled "w0") [DZ 1; DM [[1; 5]]]%Z 1 2 = Some [[2; 6]]%Q.
Proof.
  split; [|repeat split; vm_compute; reflexivity].
  assert (X : forall n t ov s, t = TInt \/ t = mi -> codegen case_fns UINT_8 n (var "int_x" t) ov [("int_x", var "int_x" mi); ("int_y", var "b" mi)] s = Err ExFuel).
  { induction n as [|n IH]; intros t ov s T; [reflexivity|]. destruct T as [-> | ->]; cbn [codegen codegen_step var body_type bindR name_of dget String.eqb Ascii.eqb Bool.eqb]; apply IH; auto. }
  intros n k K. unfold gaudi_kernel, chosen_ps in K. destruct n as [|n]; [discriminate K|].
  assert (Y : codegen case_fns UINT_8 (S n) (Node KCall mi [Atom (PStr "matrix_selection_two_args"); var "int_x" mi; var "b" mi; var "select_two_args" (TFn [TInt; TInt; TInt])]) (Some UCHAR256) [] (0, []) = Err ExFuel).
  { change ((r0 <- codegen case_fns UINT_8 n (var "int_x" TInt) (Some UCHAR256) [("int_x", var "int_x" mi); ("int_y", var "b" mi)] (0, []) ;;
            (c1 <- arg [var "int_x" TInt; var "int_y" TInt] 1 ;; r1 <- codegen case_fns UINT_8 n c1 (Some UCHAR256) [("int_x", var "int_x" mi); ("int_y", var "b" mi)] (fst r0) ;;
                      r2 <- codegen case_fns UINT_8 n (var "int_x" TInt) (Some UCHAR256) [("int_x", var "int_x" mi); ("int_y", var "b" mi)] (fst r1) ;;
                      r3 <- codegen case_fns UINT_8 n (var "int_y" TInt) (Some UCHAR256) [("int_x", var "int_x" mi); ("int_y", var "b" mi)] (fst r2) ;;
                      x0 <- dest_of (snd (snd r0)) ;; x1 <- dest_of (snd (snd r1)) ;;
                      x2 <- dest_of (snd (snd r2)) ;; x3 <- dest_of (snd (snd r3)) ;;
                      r <- emit_as (fst r3) (fst (snd r0) ++ fst (snd r1) ++ fst (snd r2) ++ fst (snd r3))%list
                             (CApp "v_u8_sel_grt_u8_b" [CId x0; CId x1; CId x2; CId x3]) UCHAR256 (Some UCHAR256) ;;
                      Ok (fst (fst r), (snd (fst r), snd r)))) = Err ExFuel).
    rewrite (X n TInt (Some UCHAR256) (0, []) (or_introl eq_refl)). reflexivity. }
  cbn [fn_return_type] in K. cbn -[codegen] in K. rewrite Y in K. discriminate K.
Qed.
Print Assumptions C51_clash_refuted.

(** ** C52: the glue code *)

(** parameters that are tensors *)
Definition tensor_param (p : expr) : bool := match type_of p with Ok t => is_list_type t | Err _ => false end.
(** the type of numbers in the header *)
Definition number_type (d : dtype) : ht := match d with UINT_8 => HUINT8 | INT32 => HINT32 | FLOAT => HFLOAT end.

Lemma header_inv d t h : header_type d t = Ok h -> (is_list_type t = true /\ h = TENSOR) \/ (is_list_type t = false /\ h = number_type d).
Proof.
  unfold header_type. destruct (is_list_type t) eqn:L; cbn; [intros [= <-]; auto|]. destruct (is_matrix_type t) eqn:M; [destruct t; discriminate|]. destruct t; try discriminate. intros [= <-]. right. split; [reflexivity|destruct d; reflexivity].
Qed.
Lemma glue_params d : d <> INT32 -> forall params ps, mapR (fun p => x <- name_of p ;; u <- type_of p ;; h <- header_type d u ;; Ok (x, u, h)) params = Ok ps ->
  List.length (filter (fun x => negb (h_primitive (snd x))) ps) = List.length (filter tensor_param params) /\
  Forall2 (fun p x => name_of p = Ok (fst (fst x)) /\ snd x = number_type d) (filter (fun p => negb (tensor_param p)) params) (filter (fun x => h_primitive (snd x)) ps) /\
  match filter (fun x => negb (h_primitive (snd x))) ps, filter tensor_param params with
  | (_, u, _) :: _, p :: _ => type_of p = Ok u | [], [] => True | _, _ => False end.
Proof.
  intros N. induction params as [|p params IH]; intros ps E; cbn [mapR] in E; [injection E as <-; repeat split; constructor|].
  destruct (name_of p) as [x|] eqn:Np; [|discriminate]. cbn [bindR] in E. destruct (type_of p) as [u|] eqn:Tp; [|discriminate]. cbn [bindR] in E. destruct (header_type d u) as [h|] eqn:H; [|discriminate]. cbn [bindR] in E.
  destruct (mapR _ params) as [ps'|]; [|discriminate]. injection E as <-. destruct (IH ps' eq_refl) as (A & B & C). cbn [filter snd].
  assert (Tq : tensor_param p = is_list_type u) by (unfold tensor_param; rewrite Tp; reflexivity). rewrite Tq.
  destruct (header_inv _ _ _ H) as [(L & ->)|(L & ->)]; rewrite L.
  - cbn. split; [f_equal; exact A|]. split; [exact B|exact Tp].
  - replace (h_primitive (number_type d)) with true by (destruct d; try reflexivity; contradiction N; reflexivity). cbn. split; [exact A|]. split; [constructor; [split; [exact Np|reflexivity]|exact B]|exact C].
Qed.

(** Full statement (false, see below): for every type of elements and every summary the glue
    code describes the parameters of the kernel.  Missing: [INT32]; results that are numbers;
    the number of dimensions is only that of the first tensor.

    It gives the number of input tensors, the names and types of the numbers, in the order of
    the parameters, and whether there are any; the kernel has one tensor more, the result. *)
Theorem C52_glue_partial d kd t f body params ret g :
  gaudi_glue d (Node kd t (Atom (PStr f) :: body :: params)) = Ok g -> fn_return_type t = Ok ret -> is_list_type ret = true -> d <> INT32 ->
  g_inputs g = List.length (filter tensor_param params) /\
  Forall2 (fun p x => name_of p = Ok (fst x) /\ snd x = number_type d) (filter (fun p => negb (tensor_param p)) params) (g_scalars g) /\
  g_has_struct g = negb (forallb tensor_param params) /\
  (forall p rest, filter tensor_param params = p :: rest -> forall u, type_of p = Ok u -> g_dims g = if is_matrix_type u then 2 else 1) /\
  forall fns n k, gaudi_kernel fns d n (Node kd t (Atom (PStr f) :: body :: params)) = Ok k ->
    List.length (filter (fun h => match snd h with TENSOR => true | _ => false end) (k_params k)) = S (g_inputs g).
Proof.
  intros E Rt Lr N.
  assert (E' : (ret <- fn_return_type t ;;
        ps <- mapR (fun p => x <- name_of p ;; u <- type_of p ;; h <- header_type d u ;; Ok (x, u, h)) params ;;
        hr <- header_type d ret ;;
        let all := (ps ++ [((f ++ "_rv")%string, ret, hr)])%list in
        let tensors := filter (fun x => negb (h_primitive (snd x))) all in
        let scalars := filter (fun x => h_primitive (snd x)) all in
        match tensors with
        | [] => Err ExIndex
        | (_, u, _) :: _ =>
            Ok {| g_inputs := List.length tensors - 1; g_dims := if is_matrix_type u then 2 else 1;
                  g_dtype := match d with UINT_8 => "gcapi::DATA_U8" | INT32 => "gcapi::DATA_I32" | FLOAT => "gcapi::DATA_F32" end;
                  g_scalars := map (fun x => (fst (fst x), snd x)) scalars;
                  g_has_struct := match scalars with [] => false | _ => true end |}
        end) = Ok g) by (destruct kd; try discriminate E; exact E).
  clear E. rewrite Rt in E'. cbn [bindR] in E'. destruct (mapR _ params) as [ps|] eqn:M; [|discriminate]. cbn [bindR] in E'.
  destruct (glue_params d N params ps M) as (A & B & C). assert (Hr : header_type d ret = Ok TENSOR) by (unfold header_type; rewrite Lr; reflexivity). rewrite Hr in E'. cbn [bindR] in E'.
  cbv zeta in E'. rewrite !filter_app in E'. cbn [filter snd h_primitive negb app] in E'. rewrite app_nil_r in E'.
  assert (Fl : List.length (filter tensor_param params) + 1 = List.length (filter (fun x => negb (h_primitive (snd x))) ps ++ [((f ++ "_rv")%string, ret, TENSOR)])) by (rewrite app_length, A; reflexivity).
  assert (G : g_inputs g = List.length (filter tensor_param params) /\ g_scalars g = map (fun x => (fst (fst x), snd x)) (filter (fun x => h_primitive (snd x)) ps) /\
    g_has_struct g = match filter (fun x => h_primitive (snd x)) ps with [] => false | _ => true end /\
    (forall p rest, filter tensor_param params = p :: rest -> forall u, type_of p = Ok u -> g_dims g = if is_matrix_type u then 2 else 1)).
  { destruct (filter (fun x => negb (h_primitive (snd x))) ps) as [|((x & u) & h) l] eqn:F; cbn [app] in E'; injection E' as <-; cbn [g_inputs g_scalars g_has_struct g_dims].
    - split; [cbn in Fl |- *; lia|]. split; [reflexivity|]. split; [reflexivity|]. intros p rest Q. rewrite Q in C. contradiction C.
    - split; [cbn in Fl |- *; lia|]. split; [reflexivity|]. split; [reflexivity|]. intros p rest Q u' U. rewrite Q in C. rewrite U in C. injection C as ->. reflexivity. }
  destruct G as (G1 & G2 & G3 & G4). split; [exact G1|]. split; [|split; [|split; [exact G4|]]].
  - rewrite G2. clear - B. induction B as [|p x l m H B IH]; cbn; constructor; auto.
  - rewrite G3. clear - B. assert (Q : List.length (filter (fun p => negb (tensor_param p)) params) = List.length (filter (fun x => h_primitive (snd x)) ps)).
    { revert B. generalize (filter (fun p => negb (tensor_param p)) params) (filter (fun x => h_primitive (snd x)) ps). intros l m F. induction F; cbn; auto. }
    assert (P : negb (forallb tensor_param params) = match filter (fun p => negb (tensor_param p)) params with [] => false | _ => true end).
    { clear. induction params as [|p params IH]; cbn; [reflexivity|]. destruct (tensor_param p); cbn; auto. }
    rewrite P. destruct (filter (fun x => h_primitive (snd x)) ps), (filter (fun p => negb (tensor_param p)) params); cbn in Q; try discriminate Q; reflexivity.
  - intros fns n k K. rewrite G1. destruct (kernel_inv _ _ _ _ _ K) as (t' & f' & body' & params' & ret' & hs & hr & ov & s' & loc & i & x & (kd' & Q) & _ & _ & Rt' & Hs & Hr' & _ & _ & ->). injection Q as <- <- <- <- <-.
    rewrite Rt in Rt'. injection Rt' as <-. rewrite Hr in Hr'. injection Hr' as <-. cbn [k_params]. rewrite filter_app, app_length. cbn.
    enough (List.length (filter (fun h => match snd h with TENSOR => true | _ => false end) hs) = List.length (filter tensor_param params)) by lia.
    clear - Hs. revert hs Hs. induction params as [|p params IH]; intros hs E; cbn [mapR] in E; [injection E as <-; reflexivity|].
    destruct (name_of p) as [x|]; [|discriminate]. cbn [bindR] in E. destruct (type_of p) as [u|] eqn:Tp; [|discriminate]. cbn [bindR] in E. destruct (header_type d u) as [h|] eqn:H; [|discriminate]. cbn [bindR] in E.
    destruct (mapR _ params) as [hs'|]; [|discriminate]. injection E as <-. specialize (IH hs' eq_refl). cbn [filter snd].
    assert (Tq : tensor_param p = is_list_type u) by (unfold tensor_param; rewrite Tp; reflexivity). rewrite Tq.
    destruct (header_inv _ _ _ H) as [(L & ->)|(L & ->)]; rewrite L; cbn; [f_equal; exact IH|destruct d; exact IH].
Qed.
Print Assumptions C52_glue_partial.

Definition blend2 : expr := Node KFnDecl (TFn [mi; mi; TInt; mi; TInt])
  [Atom (PStr "blend_ps"); call2 "matrix_scalar_add" (var "k" TInt) (call2 "matrix_elemwise_mul" (var "base" mi) (var "active" mi)); var "base" mi; var "k" TInt; var "active" mi; var "m" TInt].
Example C52_case : fn_return_type (TFn [mi; mi; TInt; mi; TInt]) = Ok mi /\
  gaudi_glue UINT_8 blend2 = Ok {| g_inputs := 2; g_dims := 2; g_dtype := "gcapi::DATA_U8"; g_scalars := [("k", HUINT8); ("m", HUINT8)]; g_has_struct := true |} /\
  match gaudi_kernel [] UINT_8 20 blend2 with Ok k => k_params k = [("base", TENSOR); ("k", HUINT8); ("active", TENSOR); ("m", HUINT8); ("blend_ps_rv", TENSOR)] | Err _ => False end.
Proof. repeat split; vm_compute; reflexivity. Qed.

(** For 32 bits every parameter counts as a tensor; a result that is a number is counted as
    if it were one of the tensors; a matrix may have one dimension. *)
Theorem C52_glue_refuted :
  (forall ps g, gaudi_glue INT32 ps = Ok g -> g_inputs g = List.length (decl_params ps) /\ g_scalars g = [] /\ g_has_struct g = false) /\
  (gaudi_glue INT32 blend2 = Ok {| g_inputs := 4; g_dims := 2; g_dtype := "gcapi::DATA_I32"; g_scalars := []; g_has_struct := false |}) /\
  (gaudi_glue FLOAT total = Ok {| g_inputs := 0; g_dims := 1; g_dtype := "gcapi::DATA_F32"; g_scalars := [("total_ps_rv", HFLOAT)]; g_has_struct := true |}) /\
  (let ps := Node KFnDecl (TFn [mi; TList TInt; mi]) [Atom (PStr "f_ps"); var "base" mi; var "xs" (TList TInt); var "base" mi] in
   gaudi_glue FLOAT ps = Ok {| g_inputs := 2; g_dims := 1; g_dtype := "gcapi::DATA_F32"; g_scalars := []; g_has_struct := false |} /\
   match gaudi_kernel [] FLOAT 20 ps with Ok k => k_shape k = TwoDim | Err _ => False end).
Proof.
  split; [|repeat split; vm_compute; reflexivity]. intros ps g E.
  assert (A : forall params qs, mapR (fun p => x <- name_of p ;; u <- type_of p ;; h <- header_type INT32 u ;; Ok (x, u, h)) params = Ok qs ->
    filter (fun x => negb (h_primitive (snd x))) qs = qs /\ filter (fun x => h_primitive (snd x)) qs = [] /\ List.length qs = List.length params).
  { induction params as [|p params IH]; intros qs M; cbn [mapR] in M; [injection M as <-; auto|].
    destruct (name_of p) as [x|]; [|discriminate]. cbn [bindR] in M. destruct (type_of p) as [u|]; [|discriminate]. cbn [bindR] in M. destruct (header_type INT32 u) as [h|] eqn:H; [|discriminate]. cbn [bindR] in M.
    destruct (mapR _ params) as [qs'|]; [|discriminate]. injection M as <-. destruct (IH qs' eq_refl) as (I1 & I2 & I3). cbn [filter snd].
    destruct (header_inv _ _ _ H) as [(_ & ->)|(_ & ->)]; cbn; rewrite I1, I2, I3; auto. }
  unfold gaudi_glue in E. destruct ps as [|kd t [|[[f| | |]|] [|body params]]]; try discriminate E; try (destruct kd; discriminate E).
  assert (D : decl_params (Node kd t (Atom (PStr f) :: body :: params)) = params) by (destruct kd; try discriminate E; reflexivity). rewrite D. clear D.
  destruct kd; try discriminate E;
  (destruct (fn_return_type t) as [ret|]; [|discriminate E]; cbn [bindR] in E; destruct (mapR _ params) as [qs|] eqn:M; [|discriminate E]; cbn [bindR] in E;
   destruct (header_type INT32 ret) as [hr|] eqn:Hr; [|discriminate E]; cbn [bindR] in E; cbv zeta in E; destruct (A _ _ M) as (I1 & I2 & I3);
   rewrite !filter_app, I1, I2 in E; (assert (P : h_primitive hr = false) by (destruct (header_inv _ _ _ Hr) as [(_ & ->)|(_ & ->)]; reflexivity)); cbn [filter snd] in E; rewrite P in E; cbn [negb app] in E;
   destruct qs as [|((x & u) & h) l]; cbn [app] in E; injection E as <-; cbn [g_inputs g_scalars g_has_struct map]; cbn in I3 |- *; rewrite ?app_length; cbn; (split; [lia|auto])).
Qed.
Print Assumptions C52_glue_refuted.
