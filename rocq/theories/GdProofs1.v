(** The code generator for Gaudi as a relation, one rule per way to a result. *)

From Coq Require Import String Ascii List ZArith Bool Lia.
From Verif Require Import Ast Dict SmtPrint NpModel GdModel.
Import ListNotations.
Local Open Scope list_scope.
Local Open Scope string_scope.

Lemma bind_ok {A B} (m : res A) (f : A -> res B) b : bindR m f = Ok b -> exists a, m = Ok a /\ f a = Ok b.
Proof. destruct m; [eauto|discriminate]. Qed.
Ltac binds := repeat match goal with H : bindR _ _ = Ok _ |- _ => apply bind_ok in H as (? & ? & H) end.

Definition callf (t : ty) (f : string) (args : list expr) : expr := Node KCall t (Atom (PStr f) :: args).
Definition is_call (k : kind) : Prop := k = KCall \/ k = KTargetCall.
Definition is_var (k : kind) : Prop := k = KVar \/ k = KNonTerm.
Definition or_ (ov : option bt) (def : bt) : bt := match ov with Some u => u | None => def end.

Section Gen.
  Variable fns : list (string * expr).
  Variable d : dtype.

  Inductive gen : expr -> option bt -> list (string * expr) -> gst -> gst -> list instr -> instr -> Prop :=
  | g_sub k t x rest a ov vars s s' loc i : is_var k -> dget vars x = Some a ->
      gen a ov vars s s' loc i -> gen (Node k t (Atom (PStr x) :: rest)) ov vars s s' loc i
  | g_load k t x rest def ov vars s r s' loc i : is_var k -> dget vars x = None -> body_type d t = Ok def ->
      is_list_type t = true ->
      emit_as s [] (CApp ("v_" ++ fn_dtype d ++ "_ld_tnsr_b") [CId "inputCoord"; CId x]) def (Some (or_ ov def)) = Ok r ->
      remember (Node k t (Atom (PStr x) :: rest)) r = Ok (s', (loc, i)) ->
      gen (Node k t (Atom (PStr x) :: rest)) ov vars s s' loc i
  | g_scalar k t x rest def ov vars s r s' loc i : is_var k -> dget vars x = None -> body_type d t = Ok def ->
      is_list_type t = false ->
      emit s [] (Some (CId x)) (Some (or_ ov def)) Fresh = Ok r ->
      remember (Node k t (Atom (PStr x) :: rest)) r = Ok (s', (loc, i)) ->
      gen (Node k t (Atom (PStr x) :: rest)) ov vars s s' loc i
  | g_ite t c a b ov vars s s' loc i : gen a ov vars s s' loc i -> gen (Node KIte t [c; a; b]) ov vars s s' loc i
  | g_lit t a rest def ov vars s r s' loc i : body_type d t = Ok def ->
      emit s [] (Some (CLit a)) (Some (or_ ov def)) Fresh = Ok r ->
      remember (Node KLit t (Atom a :: rest)) r = Ok (s', (loc, i)) ->
      gen (Node KLit t (Atom a :: rest)) ov vars s s' loc i
  | g_prim k op t a b rest def ov vars s s1 l1 i1 s2 l2 i2 t1 t2 x1 x2 s' loc i :
      c_op k = Some op -> body_type d t = Ok def ->
      gen a None vars s s1 l1 i1 -> gen b None vars s1 s2 l2 i2 ->
      i_type i1 = Some t1 -> i_type i2 = Some t2 -> is_primitive t1 = true -> is_primitive t2 = true ->
      i_dest i1 = Some x1 -> i_dest i2 = Some x2 ->
      emit_as s2 (l1 ++ l2) (CBin op (CId x1) (CId x2)) def (Some (or_ ov def)) = Ok (s', loc, i) ->
      gen (Node k t (a :: b :: rest)) ov vars s s' loc i
  | g_tensor k t a b rest pre a' b' ov vars s s1 l1 i1 s2 l2 i2 s' loc i :
      c_op k <> None ->
      gen a None vars s s1 l1 i1 -> gen b None vars s1 s2 l2 i2 ->
      (pre = "scalar_matrix" /\ a' = a /\ b' = b) \/ (pre = "matrix_scalar" /\ a' = b /\ b' = a) \/
      (pre = "matrix_elemwise" /\ a' = a /\ b' = b) ->
      gen (callf (TMatrix TInt) (pre ++ fn_suffix k) [a'; b']) None vars s2 s' loc i ->
      gen (Node k t (a :: b :: rest)) ov vars s s' loc i
  | g_select k t f ma mb rest def sel t' kc tc c0 c1 cs a b p q ps x y op ov vars s s0 l0 i0 s1 l1 i1 s2 l2 i2 s3 l3 i3 x0 x1 x2 x3 s' loc i :
      is_call k -> ends_with "matrix_selection_two_args" f = true -> body_type d t = Ok def ->
      select_fn fns = Ok sel -> decl_body sel = Ok (Node KIte t' [Node kc tc (c0 :: c1 :: cs); a; b]) ->
      decl_params sel = p :: q :: ps -> name_of p = Ok x -> name_of q = Ok y -> sel_name kc = Some op ->
      gen c0 (Some def) (dset (dset [] x ma) y mb) s s0 l0 i0 -> gen c1 (Some def) (dset (dset [] x ma) y mb) s0 s1 l1 i1 ->
      gen a (Some def) (dset (dset [] x ma) y mb) s1 s2 l2 i2 -> gen b (Some def) (dset (dset [] x ma) y mb) s2 s3 l3 i3 ->
      i_dest i0 = Some x0 -> i_dest i1 = Some x1 -> i_dest i2 = Some x2 -> i_dest i3 = Some x3 ->
      emit_as s3 (l0 ++ l1 ++ l2 ++ l3) (CApp ("v_" ++ fn_dtype d ++ "_sel_" ++ op ++ "_" ++ fn_dtype d ++ "_b") [CId x0; CId x1; CId x2; CId x3])
        def (Some (or_ ov def)) = Ok (s', loc, i) ->
      gen (Node k t (Atom (PStr f) :: ma :: mb :: rest)) ov vars s s' loc i
  | g_sum k t a rest ov vars s s1 l1 i1 x s' loc i :
      is_call k -> gen a None vars s s1 l1 i1 -> i_dest i1 = Some x ->
      emit s1 l1 (Some (CApp "v_i32_add_b" [CApp "v_i32_reduce_add" [CId x]; CId "sum"])) None (Named "sum") = Ok (s', loc, i) ->
      gen (Node k t (Atom (PStr "reduce_sum") :: a :: rest)) ov vars s s' loc i
  | g_slice k t f a rest ov vars s s' loc i :
      is_call k -> smem f slices = true -> gen a ov vars s s' loc i ->
      gen (Node k t (Atom (PStr f) :: a :: rest)) ov vars s s' loc i
  | g_div k t f a b rest ov vars s s1 l1 i1 s2 l2 i2 s' loc i :
      is_call k -> smem f (variants "div") = true ->
      gen a (Some (if contains "scalar" f then FLOAT64 else match d with UINT_8 => FLOAT256 | _ => FLOAT64 end)) vars s s1 l1 i1 ->
      gen b (Some match d with UINT_8 => FLOAT256 | _ => FLOAT64 end) vars s1 s2 l2 i2 ->
      (if swapped f then div_tail ov (l2, i2) (l1, i1) s2 else div_tail ov (l1, i1) (l2, i2) s2) = Ok (s', (loc, i)) ->
      gen (Node k t (Atom (PStr f) :: a :: b :: rest)) ov vars s s' loc i
  | g_arith k t f a b rest def ov vars s s1 l1 i1 s2 l2 i2 x1 x2 g ret s' loc i :
      is_call k -> smem f (variants "add" ++ variants "sub" ++ variants "mul")%list = true -> body_type d t = Ok def ->
      gen a (Some def) vars s s1 l1 i1 -> gen b (Some def) vars s1 s2 l2 i2 ->
      i_dest i1 = Some x1 -> i_dest i2 = Some x2 -> arith_instr d f def = (g, ret) ->
      emit_as s2 (if swapped f then l2 ++ l1 else l1 ++ l2) (CApp g (if swapped f then [CId x2; CId x1] else [CId x1; CId x2])) ret (Some (or_ ov def)) = Ok (s', loc, i) ->
      gen (Node k t (Atom (PStr f) :: a :: b :: rest)) ov vars s s' loc i.

  Lemma dest_ok i x : dest_of i = Ok x -> i_dest i = Some x.
  Proof. unfold dest_of. destruct (i_dest i); [intros [= ->]; reflexivity|discriminate]. Qed.
  Lemma itype_ok i t : type_of_instr i = Ok t -> i_type i = Some t.
  Proof. unfold type_of_instr. destruct (i_type i); [intros [= ->]; reflexivity|discriminate]. Qed.

  Definition sound (rec : expr -> option bt -> list (string * expr) -> gst -> res (gst * out)) : Prop :=
    forall e ov vars s s' o, rec e ov vars s = Ok (s', o) -> gen e ov vars s s' (fst o) (snd o).

  Lemma arg0 {l : list expr} {a} : arg l 0 = Ok a -> exists r, l = a :: r.
  Proof. destruct l; [discriminate|]. intros [= ->]. eauto. Qed.
  Lemma arg1 {l : list expr} {a} : arg l 1 = Ok a -> exists b r, l = b :: a :: r.
  Proof. destruct l as [|? [|? ?]]; try discriminate. intros [= ->]. eauto. Qed.

  Lemma step_sound rec : sound rec -> sound (codegen_step fns d rec).
  Proof.
    intros R e ov vars s s' o E. destruct o as [loc i]. cbn [fst snd].
    destruct e as [|k t args]; [discriminate|]. cbn [codegen_step] in E.
    apply bind_ok in E as (def & Td & E). cbv zeta in E.
    assert (V : forall x, name_of (Node k t args) = Ok x -> exists rest, args = Atom (PStr x) :: rest).
    { intros x Hx. destruct k; try discriminate Hx; destruct args as [|[[]|] ?]; try discriminate Hx; injection Hx as ->; eauto. }
    assert (Var : is_var k ->
      (x <- name_of (Node k t args) ;;
       match dget vars x with
       | Some a => rec a ov vars s
       | None =>
           if is_list_type t || is_matrix_type t
           then r <- emit_as s [] (CApp ("v_" ++ fn_dtype d ++ "_ld_tnsr_b") [CId "inputCoord"; CId x]) def (Some (or_ ov def)) ;; remember (Node k t args) r
           else r <- emit s [] (Some (CId x)) (Some (or_ ov def)) Fresh ;; remember (Node k t args) r
       end) = Ok (s', (loc, i)) -> gen (Node k t args) ov vars s s' loc i).
    { intros Kv Ev. apply bind_ok in Ev as (x & Nx & Ev). destruct (V x Nx) as (rest & ->).
      destruct (dget vars x) as [a|] eqn:Dx.
      - eapply g_sub; eauto. exact (R _ _ _ _ _ _ Ev).
      - assert (Q : is_list_type t || is_matrix_type t = is_list_type t) by (destruct t; reflexivity). rewrite Q in Ev.
        destruct (is_list_type t) eqn:L; apply bind_ok in Ev as (r & Er & Ev); [eapply g_load; eauto|eapply g_scalar; eauto]. }
    assert (Op : c_op k <> None ->
      (a <- arg args 0 ;; r1 <- rec a None vars s ;;
       b <- arg args 1 ;; r2 <- rec b None vars (fst r1) ;;
       t1 <- type_of_instr (snd (snd r1)) ;; t2 <- type_of_instr (snd (snd r2)) ;;
       if is_primitive t1 && is_primitive t2
       then match c_op k with
            | Some op =>
                x1 <- dest_of (snd (snd r1)) ;; x2 <- dest_of (snd (snd r2)) ;;
                r <- emit_as (fst r2) (fst (snd r1) ++ fst (snd r2))%list (CBin op (CId x1) (CId x2)) def (Some (or_ ov def)) ;;
                Ok (fst (fst r), (snd (fst r), snd r))
            | None => Err ExNYI
            end
       else
         let '(pre, a, b) :=
           if is_primitive t1 then ("scalar_matrix", a, b)
           else if is_primitive t2 then ("matrix_scalar", b, a)
           else ("matrix_elemwise", a, b) in
         rec (Node KCall (TMatrix TInt) [Atom (PStr (pre ++ fn_suffix k)); a; b]) None vars (fst r2)) = Ok (s', (loc, i)) ->
      gen (Node k t args) ov vars s s' loc i).
    { intros Ko Eo. apply bind_ok in Eo as (a & A0 & Eo). apply bind_ok in Eo as ((s1 & o1) & R1 & Eo).
      apply bind_ok in Eo as (b & A1 & Eo). apply bind_ok in Eo as ((s2 & o2) & R2 & Eo).
      destruct (arg1 A1) as (a' & rest & ->). injection A0 as ->.
      apply bind_ok in Eo as (t1 & T1 & Eo). apply bind_ok in Eo as (t2 & T2 & Eo). apply itype_ok in T1, T2. cbn [fst snd] in *.
      apply R in R1, R2. destruct (is_primitive t1 && is_primitive t2) eqn:P.
      - destruct (c_op k) as [op|] eqn:Ck; [|discriminate]. apply bind_ok in Eo as (x1 & X1 & Eo). apply bind_ok in Eo as (x2 & X2 & Eo).
        apply bind_ok in Eo as (((s3 & l3) & i3) & E3 & Eo). injection Eo as <- <- <-. apply dest_ok in X1, X2. apply andb_prop in P as (P1 & P2).
        eapply g_prim; eauto.
      - destruct (if is_primitive t1 then ("scalar_matrix", a, b) else if is_primitive t2 then ("matrix_scalar", b, a) else ("matrix_elemwise", a, b))
          as [[pre a'] b'] eqn:Q.
        apply R in Eo. cbn [fst snd] in Eo. refine (g_tensor _ _ _ _ _ pre a' b' _ _ _ _ _ _ _ _ _ _ _ _ Ko R1 R2 _ Eo).
        destruct (is_primitive t1); [injection Q as <- <- <-; auto|]. destruct (is_primitive t2); injection Q as <- <- <-; auto. }
    assert (Ca : is_call k ->
      match args with
      | Atom (PStr f) :: rest =>
          if ends_with "matrix_selection_two_args" f then select_step fns d rec def (or_ ov def) rest s
          else if String.eqb f "reduce_sum" then
            a <- arg rest 0 ;; r <- rec a None vars s ;;
            match i_type (snd (snd r)), i_dest (snd (snd r)) with
            | Some INT64, Some x =>
                r' <- emit (fst r) (fst (snd r))
                        (Some (CApp "v_i32_add_b" [CApp "v_i32_reduce_add" [CId x]; CId "sum"])) None (Named "sum") ;;
                Ok (fst (fst r'), (snd (fst r'), snd r'))
            | _, _ => Err ExValue
            end
          else if smem f slices then a <- arg rest 0 ;; rec a ov vars s
          else if smem f (variants "div") then div_step d rec f ov vars rest s
          else if smem f (variants "add" ++ variants "sub" ++ variants "mul")%list then arith_step d rec f def (or_ ov def) vars rest s
          else Err ExTypes
      | _ => Err ExIndex
      end = Ok (s', (loc, i)) -> gen (Node k t args) ov vars s s' loc i).
    { intros Kc Ec. destruct args as [|[[f| | |]|] rest]; try discriminate.
      destruct (ends_with "matrix_selection_two_args" f) eqn:Ef.
      { unfold select_step in Ec. apply bind_ok in Ec as (sel & Se & Ec). apply bind_ok in Ec as (body & Bo & Ec).
        destruct body as [|kb tb [|c [|a [|b [|? ?]]]]]; try (destruct kb; discriminate Ec); try discriminate Ec.
        destruct kb; try discriminate Ec. destruct (decl_params sel) as [|p [|q ps]] eqn:Dp; try discriminate Ec.
        destruct rest as [|ma [|mb rest]]; try discriminate Ec.
        apply bind_ok in Ec as (x & Nx & Ec). apply bind_ok in Ec as (y & Ny & Ec). cbv zeta in Ec.
        destruct c as [|kc tc cs]; [discriminate|]. destruct (sel_name kc) as [op|] eqn:Sn; [|discriminate].
        apply bind_ok in Ec as (c0 & C0 & Ec). apply bind_ok in Ec as ((s0 & o0) & R0 & Ec).
        apply bind_ok in Ec as (c1 & C1 & Ec). apply bind_ok in Ec as ((s1 & o1) & R1 & Ec).
        apply bind_ok in Ec as ((s2 & o2) & R2 & Ec). apply bind_ok in Ec as ((s3 & o3) & R3 & Ec). cbn [fst snd] in *.
        destruct (arg1 C1) as (c0' & cr & ->). injection C0 as ->.
        apply bind_ok in Ec as (x0 & X0 & Ec). apply bind_ok in Ec as (x1 & X1 & Ec). apply bind_ok in Ec as (x2 & X2 & Ec). apply bind_ok in Ec as (x3 & X3 & Ec).
        apply bind_ok in Ec as (((s4 & l4) & i4) & E4 & Ec). injection Ec as <- <- <-. apply dest_ok in X0, X1, X2, X3.
        apply R in R0, R1, R2, R3. eapply g_select; eauto. }
      destruct (String.eqb_spec f "reduce_sum") as [->|Nf].
      { apply bind_ok in Ec as (a & A0 & Ec). apply bind_ok in Ec as ((s1 & o1) & R1 & Ec). cbn [fst snd] in *. destruct (arg0 A0) as (rr & ->).
        destruct (i_type (snd o1)) as [ti|]; [|discriminate]. destruct ti; try discriminate. destruct (i_dest (snd o1)) as [x|] eqn:X; [|discriminate].
        apply bind_ok in Ec as (((s4 & l4) & i4) & E4 & Ec). injection Ec as <- <- <-. apply R in R1. eapply g_sum; eauto. }
      destruct (smem f slices) eqn:Sl.
      { apply bind_ok in Ec as (a & A0 & Ec). destruct (arg0 A0) as (rr & ->). apply R in Ec. eapply g_slice; eauto. }
      destruct (smem f (variants "div")) eqn:Dv.
      { unfold div_step in Ec. cbv zeta in Ec. apply bind_ok in Ec as (a & A0 & Ec). apply bind_ok in Ec as ((s1 & o1) & R1 & Ec).
        apply bind_ok in Ec as (b & A1 & Ec). apply bind_ok in Ec as ((s2 & o2) & R2 & Ec). cbn [fst snd] in *.
        destruct (arg1 A1) as (a' & rr & ->). injection A0 as ->. apply R in R1, R2. destruct o1 as [l1 i1], o2 as [l2 i2]. eapply g_div; eauto. }
      destruct (smem f (variants "add" ++ variants "sub" ++ variants "mul")) eqn:Ar; [|discriminate].
      unfold arith_step in Ec. destruct (arith_instr d f def) as [g ret] eqn:Ai. apply bind_ok in Ec as (a & A0 & Ec). apply bind_ok in Ec as ((s1 & o1) & R1 & Ec).
      apply bind_ok in Ec as (b & A1 & Ec). apply bind_ok in Ec as ((s2 & o2) & R2 & Ec). cbn [fst snd] in *. cbv zeta in Ec.
      destruct (arg1 A1) as (a' & rr & ->). injection A0 as ->. apply R in R1, R2. destruct o1 as [l1 i1], o2 as [l2 i2]. cbn [fst snd] in *.
      apply bind_ok in Ec as (x1 & X1 & Ec). apply bind_ok in Ec as (x2 & X2 & Ec). apply bind_ok in Ec as (((s4 & l4) & i4) & E4 & Ec).
      injection Ec as <- <- <-. apply dest_ok in X1, X2. destruct (swapped f) eqn:Sw; cbn [fst snd] in *; eapply g_arith; eauto; rewrite Sw; exact E4. }
    destruct k; try discriminate E;
      try (apply Var; [first [left; reflexivity | right; reflexivity] | exact E]);
      try (apply Op; [discriminate | exact E]);
      try (apply Ca; [first [left; reflexivity | right; reflexivity] | exact E]).
    - destruct args as [|[a|] rest]; try discriminate E. apply bind_ok in E as (r & Er & E). eapply g_lit; eauto.
    - destruct args as [|c [|a [|b [|? ?]]]]; try discriminate E. apply bind_ok in E as (v & Ev & E).
      assert (v = true) as ->.
      { unfold condition in Ev. destruct c as [|kc ? cargs]; [discriminate|]. destruct kc; try discriminate Ev; destruct cargs as [|[[g| | |]|] ?]; try discriminate Ev;
          destruct (dget fns g); try discriminate Ev; apply bind_ok in Ev as (? & ? & Ev); injection Ev as <-; reflexivity. }
      apply R in E. apply g_ite, E.
  Qed.

  Lemma codegen_gen n : sound (codegen fns d n).
  Proof. induction n as [|n IH]; [intros ? ? ? ? ? ? E; discriminate E|]. apply (step_sound _ IH). Qed.
End Gen.
