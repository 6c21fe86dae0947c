(** The value that the instructions for Gaudi compute, lane by lane. *)

From Coq Require Import String Ascii List ZArith Bool Lia QArith Qround.
From Verif Require Import Ast Dict Semantics SmtPrint UtilProofs LibSem RktModel NpModel NpSem GdModel GdSem GdProofs1 GdProofs2 GdProofs3 GdProofs4 GdProofs5.
Import ListNotations.
Local Open Scope nat_scope.
Local Open Scope string_scope.
Local Open Scope list_scope.

(** ** numbers that the expressions stand for in a lane *)
Definition kop (k : kind) (a b : Z) : option Z :=
  match k with KAdd => Some (a + b)%Z | KSub => Some (a - b)%Z | KMul => Some (a * b)%Z | KDiv => pdiv a b | _ => None end.
Definition fst_of (f : string) (a b : Z) : Z := if swapped f then b else a.
Definition zop (f : string) (a b : Z) : option Z :=
  let x := fst_of f a b in
  let y := fst_of f b a in
  if smem f (variants "add") then Some (x + y)%Z else if smem f (variants "sub") then Some (x - y)%Z
  else if smem f (variants "mul") then Some (x * y)%Z else if smem f (variants "div") then pdiv x y else None.
Definition zcmp (k : kind) (a b : Z) : bool :=
  match k with KGt => Z.ltb b a | KEq => Z.eqb a b | KLt => Z.ltb a b | KLe => Z.leb a b | _ => Z.leb b a end.

Lemma smem_cases f l : smem f l = true -> In f l.
Proof.
  induction l as [|a l IH]; cbn; [discriminate|]. destruct (String.eqb_spec f a); [auto|]. intros H. right. apply IH, H.
Qed.
Ltac names H := apply smem_cases in H; cbn in H; repeat (destruct H as [<-|H]; [|]); try contradiction H.

Section Den.
  Variables (fns : list (string * expr)) (d : dtype) (r : env) (o j : nat).

  Definition vden (x : string) (k : nat) (z : Z) : Prop := exists v, r x = Some (emb v) /\ proper v /\ elem v (o + k) j = Some z.

  Inductive den : list (string * expr) -> bool -> expr -> nat -> Z -> Prop :=
  | d_sub t x rest a vars w k z : dget vars x = Some a -> den vars w a k z -> den vars w (Node KVar t (Atom (PStr x) :: rest)) k z
  | d_var t x rest vars w k z : dget vars x = None -> vden x k z -> in_range d z -> den vars w (Node KVar t (Atom (PStr x) :: rest)) k z
  | d_ite t c a b vars w k z : den vars w a k z -> den vars w (Node KIte t [c; a; b]) k z
  | d_lit t z rest vars w k : in_range d z -> den vars w (Node KLit t (Atom (PInt z) :: rest)) k z
  | d_op kd t a b vars w k x y z : den vars false a k x -> den vars false b k y -> kop kd x y = Some z -> in_range d z -> (kd = KDiv -> div_ok d x y) ->
      den vars w (Node kd t [a; b]) k z
  | d_select t f ma mb rest sel t' kc tc c0 c1 cs a b p q ps x y vars w k z0 z1 z :
      ends_with "matrix_selection_two_args" f = true -> select_fn fns = Ok sel -> decl_body sel = Ok (Node KIte t' [Node kc tc (c0 :: c1 :: cs); a; b]) ->
      decl_params sel = p :: q :: ps -> name_of p = Ok x -> name_of q = Ok y ->
      den (dset (dset [] x ma) y mb) false c0 k z0 -> den (dset (dset [] x ma) y mb) false c1 k z1 ->
      (zcmp kc z0 z1 = true -> den (dset (dset [] x ma) y mb) false a k z) -> (zcmp kc z0 z1 = false -> den (dset (dset [] x ma) y mb) false b k z) ->
      in_range d z -> den vars w (callf t f (ma :: mb :: rest)) k z
  | d_slice t f a rest vars w k z : smem f slices = true -> den vars w a k z -> den vars w (callf t f (a :: rest)) k z
  | d_call t f a b rest vars w wa wb k x y z : den vars wa a k x -> den vars wb b k y -> zop f x y = Some z ->
      (smem f (variants "div") = true -> div_ok d (fst_of f x y) (fst_of f y x)) ->
      (in_range d z \/ (w = true /\ smem f (variants "mul") = true)) ->
      (wa = true -> d = UINT_8 /\ smem f (variants "div") = true /\ contains "scalar" f = false) ->
      (wb = true -> d = UINT_8 /\ smem f (variants "div") = true) ->
      den vars w (callf t f (a :: b :: rest)) k z.

  Lemma zop_names f x y z : zop f x y = Some z -> In f (variants "add" ++ variants "sub" ++ variants "mul" ++ variants "div").
  Proof.
    unfold zop. cbv zeta. rewrite !in_app_iff.
    destruct (smem f (variants "add")) eqn:A; [apply smem_cases in A; auto|]. destruct (smem f (variants "sub")) eqn:B; [apply smem_cases in B; auto|].
    destruct (smem f (variants "mul")) eqn:C; [apply smem_cases in C; auto|]. destruct (smem f (variants "div")) eqn:D; [apply smem_cases in D; auto|discriminate].
  Qed.
  Lemma zop_not f x y z : zop f x y = Some z -> ends_with "matrix_selection_two_args" f = false /\ f <> "reduce_sum" /\ smem f slices = false.
  Proof.
    intros E. apply zop_names in E. cbn in E. repeat (destruct E as [<-|E]; [split; [reflexivity|split; [discriminate|reflexivity]]|]). contradiction E.
  Qed.
  Lemma slices_not f : smem f slices = true -> ends_with "matrix_selection_two_args" f = false /\ f <> "reduce_sum" /\ smem f (variants "div") = false /\ smem f (variants "add" ++ variants "sub" ++ variants "mul") = false.
  Proof. intros E. apply smem_cases in E. cbn in E. repeat (destruct E as [<-|E]; [repeat split; (reflexivity || discriminate)|]). contradiction E. Qed.
  Lemma zop_arith f x y z : smem f (variants "add" ++ variants "sub" ++ variants "mul") = true -> zop f x y = Some z ->
    smem f (variants "div") = false /\ (smem f (variants "mul") = true -> smem f (variants "add") = false /\ smem f (variants "sub") = false) /\
    z = (if smem f (variants "add") then fst_of f x y + fst_of f y x else if smem f (variants "sub") then fst_of f x y - fst_of f y x else fst_of f x y * fst_of f y x)%Z.
  Proof.
    intros H. apply smem_cases in H. cbn in H. repeat (destruct H as [<-|H]; [intros E; injection E as <-; repeat split; intros; try reflexivity; try discriminate|]). contradiction H.
  Qed.
  Lemma zop_div f x y z : smem f (variants "div") = true -> zop f x y = Some z -> (0 < fst_of f y x)%Z /\ z = (fst_of f x y / fst_of f y x)%Z.
  Proof.
    intros H. assert (N : smem f (variants "add") = false /\ smem f (variants "sub") = false /\ smem f (variants "mul") = false).
    { apply smem_cases in H. cbn in H. repeat (destruct H as [<-|H]; [repeat split; reflexivity|]). contradiction H. }
    unfold zop. cbv zeta. destruct N as (-> & -> & ->). rewrite H. unfold pdiv. destruct (Z.ltb_spec 0 (fst_of f y x)); [|discriminate]. intros [= <-]. auto.
  Qed.
End Den.

Section Lanes.
  Variables (tile : string -> option lanes) (st : cst) (d : dtype).
  Hypothesis Hsum : forall t w, st "sum" = Some (t, w) -> exists q, w = Sc q.
  Notation value := (value st d).
  Notation typed := (typed st d).

  Lemma value_ve d' i k z x t v : GdProofs5.value st d' i k z -> i_dest i = Some x -> ceval tile st (CId x) = Some (t, Ve v) -> (v k == inject_Z z)%Q.
  Proof.
    intros (t' & y & w & _ & Y & S & Is & _) X E. rewrite X in Y. injection Y as <-. apply ceval_id in E as (E & _). rewrite S in E. injection E as _ ->. apply is_ve, Is.
  Qed.

  (** sums, differences, products *)
  Lemma arith_between f t def g ret : body_type d t = Ok def -> arith_instr d f def = (g, ret) -> between d ret /\ (d = UINT_8 -> ret <> FLOAT64).
  Proof.
    intros B E. destruct (body_type_allowed _ _ _ B) as (A & N). unfold arith_instr in E. cbv zeta in E.
    destruct (smem f (variants "add")); [injection E as _ <-; unfold between; split; [auto|intros D; apply (N D)]|].
    destruct (smem f (variants "sub")); [injection E as _ <-; unfold between; split; [auto|intros D; apply (N D)]|].
    injection E as _ <-. unfold between. destruct d; split; auto; discriminate.
  Qed.
  Lemma arith_value f def g ret x1 x2 i1 i2 k a b z v w : arith_instr d f def = (g, ret) -> value i1 k a -> value i2 k b -> i_dest i1 = Some x1 -> i_dest i2 = Some x2 ->
    z = (if smem f (variants "add") then a + b else if smem f (variants "sub") then a - b else a * b)%Z -> in_range d z \/ (ret = UINT256) ->
    ceval tile st (CApp g [CId x1; CId x2]) = Some v -> initial ret v = Some w -> is w k z /\ (ret = INT128 -> exists lo hi, w = V2 lo hi).
  Proof.
    intros E V1 V2 X1 X2 Z R C N. unfold arith_instr in E. cbv zeta in E.
    assert (Sum : forall q x, (q == inject_Z z)%Q -> in_range d z -> (x = match d with UINT_8 => u8 (ztrunc q) | INT32 => i32 (ztrunc q) | FLOAT => q end) -> (x == inject_Z z)%Q).
    { intros q x Q I ->. unfold in_range in I. destruct d; cbn in I; rewrite ?(ztrunc_int _ _ Q), ?u8_id, ?i32_id by lia; auto; reflexivity. }
    destruct (smem f (variants "add")); [|destruct (smem f (variants "sub"))].
    1,2: injection E as <- <-;
      assert (H : exists va vb, ceval tile st (CId x1) = Some (match d with UINT_8 => UCHAR256 | INT32 => INT64 | FLOAT => FLOAT64 end, Ve va) /\
        ceval tile st (CId x2) = Some (match d with UINT_8 => UCHAR256 | INT32 => INT64 | FLOAT => FLOAT64 end, Ve vb) /\
        exists q : nat -> Q, (q k == inject_Z z)%Q /\ v = (match d with UINT_8 => UCHAR256 | INT32 => INT64 | FLOAT => FLOAT64 end, Ve (fun k => match d with UINT_8 => u8 (ztrunc (q k)) | INT32 => i32 (ztrunc (q k)) | FLOAT => q k end)));
      [destruct d; (eapply ceval_vec2 in C as (va & vb & w' & A & B & O & Ev); [|reflexivity|reflexivity]); injection O as <-; exists va, vb; (split; [exact A|split; [exact B|]]);
       pose proof (value_ve _ _ _ _ _ _ _ V1 X1 A) as Qa; pose proof (value_ve _ _ _ _ _ _ _ V2 X2 B) as Qb;
       first [exists (fun k => va k + vb k)%Q; split; [|exact Ev]; rewrite Z, inject_Z_plus, Qa, Qb; reflexivity
             |exists (fun k => va k - vb k)%Q; split; [|exact Ev]; unfold Qminus; rewrite Z, Qa, Qb; unfold Zminus; rewrite inject_Z_plus, inject_Z_opp; reflexivity]
      |destruct H as (va & vb & A & B & q & Q & ->)].
    1,2: apply initial_inv in N as [(q' & [=] & _)|(_ & Et & ->)]; split; [|intros ->; destruct d; discriminate Et];
      apply is_ve; eapply Sum; [exact Q| |reflexivity]; destruct R as [R|R]; [exact R|rewrite R in Et; destruct d; discriminate Et].
    injection E as <- <-. destruct d; (eapply ceval_vec2 in C as (va & vb & w' & A & B & O & Ev); [|reflexivity|reflexivity]); subst v; injection O as <-;
      pose proof (value_ve _ _ _ _ _ _ _ V1 X1 A) as Qa; pose proof (value_ve _ _ _ _ _ _ _ V2 X2 B) as Qb;
      (assert (Q : (va k * vb k == inject_Z z)%Q) by (rewrite Z, inject_Z_mult, Qa, Qb; reflexivity)).
    - apply initial_inv in N as [(q' & [=] & _)|(_ & Et & ->)]. split; [apply is_ve; exact Q|intros ->; discriminate Et].
    - apply initial_inv in N as [(q' & [=] & _)|(_ & Et & ->)]. split; [|intros [=]]. exists (va k * vb k)%Q. split; [apply (quad_lane (fun k => va k * vb k)%Q)|exact Q].
    - apply initial_inv in N as [(q' & [=] & _)|(_ & Et & ->)]. split; [|eauto]. destruct R as [R|R]; [|discriminate R]. exists (i32 (Qfloor (va k * vb k))). split; [reflexivity|]. rewrite (floor_int _ _ Q).
      unfold in_range in R; cbn in R. rewrite i32_id by lia. reflexivity.
  Qed.

  (** C's operators *)
  Lemma prim_value k' op t def x1 x2 i1 i2 t1 t2 k a b z v w : c_op k' = Some op -> body_type d t = Ok def -> value i1 k a -> value i2 k b -> i_dest i1 = Some x1 -> i_dest i2 = Some x2 ->
    i_type i1 = Some t1 -> i_type i2 = Some t2 -> is_primitive t1 = true -> is_primitive t2 = true -> kop k' a b = Some z -> in_range d z -> (k' = KDiv -> div_ok d a b) -> allowed d t1 -> allowed d t2 ->
    (d = UINT_8 -> (0 <= a)%Z) ->
    ceval tile st (CBin op (CId x1) (CId x2)) = Some v -> initial def v = Some w -> is w k z.
  Proof.
    intros K B V1 V2 X1 X2 T1 T2 P1 P2 Z R Dk A1 A2 Pa C N.
    destruct V1 as (u1 & y1 & w1 & U1 & Y1 & S1 & Is1 & _). rewrite X1 in Y1. injection Y1 as <-. rewrite T1 in U1. injection U1 as <-.
    destruct V2 as (u2 & y2 & w2 & U2 & Y2 & S2 & Is2 & _). rewrite X2 in Y2. injection Y2 as <-. rewrite T2 in U2. injection U2 as <-.
    cbn [ceval] in C. rewrite S1, S2 in C. destruct (complete w1); [|discriminate]. destruct (complete w2); [|discriminate].
    assert (D : exists q u, v = (u, Sc q) /\ (q == inject_Z z)%Q).
    { destruct t1; try discriminate P1; destruct t2; try discriminate P2; destruct w1 as [q1| | |]; try discriminate C; destruct w2 as [q2| | |]; try discriminate C; apply is_sc in Is1, Is2; cbn [c_bin] in C.
      - assert (d = UINT_8) as Ed by (destruct d; cbn in A1; intuition discriminate). rewrite (ztrunc_int _ _ Is1), (ztrunc_int _ _ Is2) in C.
        assert (H : c_int op a b = Some z).
        { destruct k'; try discriminate K; injection K as <-; cbn in Z |- *; auto. unfold pdiv in Z. destruct (Z.ltb_spec 0 b); [|discriminate]. injection Z as <-.
          destruct (Z.eqb_spec b 0); [lia|]. f_equal. apply Z.quot_div_nonneg; auto. discriminate. }
        rewrite H in C. injection C as <-. exists (i32 z), INT32C. split; [reflexivity|]. rewrite Ed in R. unfold in_range in R. cbn in R. rewrite i32_id by lia. reflexivity.
      - assert (d = FLOAT) as Ed by (destruct d; cbn in A1; intuition discriminate).
        assert (H : exists q, c_float op q1 q2 = Some q /\ (q == inject_Z z)%Q).
        { destruct k'; try discriminate K; injection K as <-; cbn in Z |- *; try discriminate Z; try (injection Z as <-).
          - exists (q1 + q2)%Q. split; [reflexivity|]. rewrite inject_Z_plus, Is1, Is2. reflexivity.
          - exists (q1 - q2)%Q. split; [reflexivity|]. unfold Qminus, Zminus. rewrite inject_Z_plus, inject_Z_opp, Is1, Is2. reflexivity.
          - exists (q1 * q2)%Q. split; [reflexivity|]. rewrite inject_Z_mult, Is1, Is2. reflexivity.
          - unfold pdiv in Z. destruct (Z.ltb_spec 0 b); [|discriminate]. injection Z as <-. rewrite (Qeq_bool_int q2 0 b 0 Is2) by reflexivity. destruct (Z.eqb_spec b 0); [lia|].
            exists (q1 / q2)%Q. split; [reflexivity|]. apply div_exact; auto. specialize (Dk eq_refl). rewrite Ed in Dk. exact Dk. }
        destruct H as (q & H & Q). rewrite H in C. injection C as <-. exists q, FLOATC. auto. }
    destruct D as (q & u & -> & Q). apply initial_inv in N as [(q' & [= <-] & N)|(N & _)]; [|destruct (N q eq_refl)].
    eapply scalar_is; eauto. apply (body_type_allowed _ _ _ B).
  Qed.

  (** selections *)
  Lemma select_value kc op x0 x1 x2 x3 i0 i1 i2 i3 k a b z def v w : sel_name kc = Some op -> value i0 k a -> value i1 k b -> i_dest i0 = Some x0 -> i_dest i1 = Some x1 -> i_dest i2 = Some x2 -> i_dest i3 = Some x3 ->
    (zcmp kc a b = true -> value i2 k z) -> (zcmp kc a b = false -> value i3 k z) ->
    ceval tile st (CApp ("v_" ++ fn_dtype d ++ "_sel_" ++ op ++ "_" ++ fn_dtype d ++ "_b") [CId x0; CId x1; CId x2; CId x3])%string = Some v -> initial def v = Some w ->
    is w k z /\ (def = INT128 -> exists lo hi, w = V2 lo hi).
  Proof.
    intros Sn V0 V1 X0 X1 X2 X3 Vt Vf C N.
    assert (H : exists t g, dget vec_sel ("v_" ++ fn_dtype d ++ "_sel_" ++ op ++ "_" ++ fn_dtype d ++ "_b")%string = Some (t, g) /\ t <> INT128 /\
      forall p q, (p == inject_Z a)%Q -> (q == inject_Z b)%Q -> g p q = zcmp kc a b).
    { exists (match d with UINT_8 => UCHAR256 | INT32 => INT64 | FLOAT => FLOAT64 end),
        (match kc with KGt => fun p q => Qlt_bool q p | KEq => Qeq_bool | KLt => Qlt_bool | KLe => Qle_bool | _ => fun p q => Qle_bool q p end).
      split; [destruct d, kc; try discriminate Sn; injection Sn as <-; reflexivity|]. split; [destruct d; discriminate|].
      intros p q P Q. destruct kc; try discriminate Sn; cbn [zcmp]; auto using Qle_bool_int, Qeq_bool_int, Qlt_bool_int. }
    destruct H as (t & g & G & Nt & Cmp). eapply ceval_sel in C as (va & vb & vc & ve & Ea & Eb & Ec & Ee & Ev); [|exact G]. subst v.
    apply initial_inv in N as [(q' & [=] & _)|(_ & -> & ->)]. split; [|intros ->; destruct (Nt eq_refl)]. apply is_ve.
    rewrite (Cmp _ _ (value_ve _ _ _ _ _ _ _ V0 X0 Ea) (value_ve _ _ _ _ _ _ _ V1 X1 Eb)). destruct (zcmp kc a b).
    - exact (value_ve _ _ _ _ _ _ _ (Vt eq_refl) X2 Ec).
    - exact (value_ve _ _ _ _ _ _ _ (Vf eq_refl) X3 Ee).
  Qed.
End Lanes.
