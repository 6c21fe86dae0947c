(** A solution that has been read means what it means in Python. *)

From Coq Require Import String List ZArith Bool Lia.
From Verif Require Import Ast IrProofs Dict Semantics SmtPrelude SmtProofs RktModel RktProofs ListOps LibSem ObjModel Properties_Rkt Properties_Obj LmModel LmSem LmProofs LmProofs2.
Import ListNotations.
Local Open Scope string_scope.
Local Open Scope list_scope.
Local Open Scope Z_scope.

(** ** Evaluation in Python, constructor by constructor *)
Section Eqs.
  Variables (st : bool) (D : string -> list pval -> option val) (nm : string -> option (list string)) (r : env).
  Notation pv := (pvalue st D nm r).
  Lemma pv_op op a b : pv (NOp op a b) =
    match pv a with
    | Some (VBool x) =>
        if String.eqb op "and" then
          if x then match pv b with Some (VBool y) => Some (VBool y) | _ => None end else Some (VBool false)
        else if String.eqb op "or" then
          if x then Some (VBool true) else match pv b with Some (VBool y) => Some (VBool y) | _ => None end
        else None
    | Some x => match pv b with Some y => py_op st op x y | None => None end
    | None => None
    end.
  Proof.
    unfold pvalue. cbn [peval].
    destruct (peval st D nm r a) as [[[]|]|]; cbn [as_val]; try reflexivity;
      repeat match goal with |- context [String.eqb op ?s] => destruct (String.eqb op s) end; try destruct b0; try reflexivity;
      destruct (peval st D nm r b) as [[[]|]|]; cbn [as_val]; try reflexivity; match goal with |- context [py_op ?a ?b ?c ?d] => destruct (py_op a b c d) end; reflexivity.
  Qed.
  Lemma pv_unary op a : pv (NUnary op a) =
    match pv a with
    | Some (VInt z) => if String.eqb op "-" then Some (VInt (- z)) else None
    | Some (VBool b) => if String.eqb op "not" then Some (VBool (negb b)) else None
    | _ => None
    end.
  Proof. unfold pvalue. cbn [peval]. destruct (peval st D nm r a) as [[[]|]|]; cbn [as_val]; try reflexivity; now destruct (String.eqb op _). Qed.
  Lemma pv_list l t : pv (NList l t) =
    if st && negb (Nat.eqb (List.length l) 0) then None else option_map VList (mapO pv l).
  Proof.
    unfold pvalue. cbn [peval]. destruct (st && _); [reflexivity|].
    fold (pvalue st D nm r). change (fun n => match peval st D nm r n with Some p => as_val p | None => None end) with pv. now destruct (mapO pv l).
  Qed.
  Lemma pv_cond c a b : pv (NCond c a b) = match pv c with Some (VBool x) => if x then pv a else pv b | _ => None end.
  Proof.
    unfold pvalue. cbn [peval]. destruct (peval st D nm r c) as [[[]|]|]; cbn [as_val]; try reflexivity.
    destruct b0; [destruct (peval st D nm r a) as [[]|]|destruct (peval st D nm r b) as [[]|]]; reflexivity.
  Qed.
  Lemma pv_cmp l ops : pv (NCmp l ops) = match map pv l with a :: rest => py_chain a rest ops | [] => None end.
  Proof.
    unfold pvalue. cbn [peval]. change (fun n => match peval st D nm r n with Some p => as_val p | None => None end) with pv.
    destruct l as [|a l]; [reflexivity|]. cbn [map]. destruct (py_chain _ _ _); reflexivity.
  Qed.
  Lemma pv_index b i : pv (NIndex b i) =
    match pv b, pv i with
    | Some (VList l), Some (VInt z) => if st && (z <? 0) then None else py_index l z
    | _, _ => None
    end.
  Proof.
    unfold pvalue. cbn [peval]. destruct (peval st D nm r b) as [[[]|]|]; cbn [as_val]; try reflexivity.
    destruct (peval st D nm r i) as [[[]|]|]; cbn [as_val]; try reflexivity. destruct (st && _); [reflexivity|]. now destruct (py_index l z).
  Qed.
  Definition pbound (o : option pnode) : option (option Z) :=
    match o with
    | None => Some None
    | Some n => match pv n with Some (VInt z) => if st && (z <? 0) then None else Some (Some z) | _ => None end
    end.
  Lemma pv_slice b i j k : pv (NSlice b i j k) =
    match pv b, pbound i, pbound j, pbound k with
    | Some (VList l), Some i, Some j, Some None => Some (VList (py_slice l i j))
    | Some (VList l), Some i, Some j, Some (Some k) =>
        if st || (k <=? 0) then None else Some (VList (py_every (Z.to_nat k) 0 (py_slice l i j)))
    | _, _, _, _ => None
    end.
  Proof.
    unfold pvalue at 1. cbn [peval].
    change (match peval st D nm r b with Some p => as_val p | None => None end) with (pv b).
    assert (E : forall o, match o with
       | Some n => match match peval st D nm r n with Some p => as_val p | None => None end with
                   | Some (VInt z) => if st && (z <? 0) then None else Some (Some z) | _ => None end
       | None => Some None end = pbound o) by (intros [n|]; reflexivity).
    rewrite !E. destruct (pv b) as [[]|]; try reflexivity. destruct (pbound i) as [|]; [|reflexivity]. destruct (pbound j); [|reflexivity].
    destruct (pbound k) as [[z|]|]; try reflexivity. now destruct (st || _).
  Qed.
  Lemma pv_len a k t : pv (NCall "len" [a] k t) =
    match r "len" with Some _ => None | None => match pv a with Some (VList l) => Some (VInt (py_len l)) | _ => None end end.
  Proof.
    unfold pvalue. cbn [peval]. change (String.eqb "len" "len") with true. cbn iota. destruct (r "len"); [reflexivity|].
    destruct (peval st D nm r a) as [[[]|]|]; reflexivity.
  Qed.
  Lemma pv_call f l k t : String.eqb f "len" = false -> st = true -> pv (NCall f l k t) =
    match r f with
    | Some _ => None
    | None => match mapO (peval st D nm r) l with
              | Some vs => if forallb (fun k => match k with None => true | Some _ => false end) k then D f vs else None
              | None => None
              end
    end.
  Proof.
    intros N ->. unfold pvalue. cbn [peval]. rewrite N. destruct (r f); [reflexivity|]. destruct (mapO _ l); [|reflexivity].
    destruct (forallb _ k); [|reflexivity]. destruct (D f l0); reflexivity.
  Qed.
End Eqs.

Lemma vty_fo t v : vty t v -> fo t = true.
Proof. destruct t as [| |[| |[]| | | | |]| | | | |]; cbn; intros H; auto; contradiction. Qed.
Lemma tidy_unobj e : tidy e = true -> unobj e = e.
Proof. destruct e as [a|k t args]; [reflexivity|]. destruct k; try reflexivity. cbn. now rewrite andb_false_r. Qed.

(** ** Erasing *)
Definition aerase (a : expr) : expr :=
  if is_decl a then match a with Node _ ta _ => mkVar (decl_name a) ta | _ => a end else erase a.
Lemma erase_call t f args : erase (Node KCall t (Atom (PStr f) :: args)) = Node KCall t (Atom (PStr f) :: map aerase args).
Proof. reflexivity. Qed.
Lemma erase_node k t args : is_call (Node k t args) = false -> erase (Node k t args) = Node k t (map erase args).
Proof. intros E. cbn [erase]. rewrite E. reflexivity. Qed.
Lemma eval_call I r t f args vs : mapO (eval I r) (map aerase args) = Some vs ->
  eval I r (erase (Node KCall t (Atom (PStr f) :: args))) = i_call I f vs.
Proof. intros E. rewrite erase_call. cbn [eval]. now rewrite E. Qed.
Lemma aerase_val I r a v : eval I r (erase a) = Some v -> eval I r (aerase a) = Some v.
Proof.
  unfold aerase. destruct (is_decl a) eqn:X; [|auto]. destruct a as [|k t args]; [discriminate|].
  destruct k; try discriminate; rewrite erase_node by reflexivity; cbn [eval op_val]; destruct (mapO _ _); discriminate.
Qed.
Lemma type_of_erase e : type_of (erase e) = type_of e.
Proof. now destruct e. Qed.

Section Sound.
  Variables (I : interp) (D : string -> list pval -> option val) (nm : string -> option (list string)).
  Variables (sigs : dict psig) (calls : list (string * string)) (Ds : list expr).
  Hypothesis H : host I.
  Hypothesis A : agree I D sigs.
  Hypothesis DEF : Forall (defines I (globals calls)) Ds.
  Let gs := map snd calls.
  Let B : backend I := h_backend I H.
  Notation pv := (pvalue true D nm).

  Definition env_ok (vars : dict ty) (r rI : env) : Prop :=
    (forall x t, dget vars x = Some t -> exists v, r x = Some v /\ rI x = Some v /\ vty t v) /\
    (forall x, smem x gs = true -> r x = None /\ rI x = Some (VFn x)).

  Definition sound_at (n : pnode) (e : expr) (r rI : env) : Prop :=
    exists T v, type_of e = Ok T /\ type_of (unobj e) = Ok T /\
      eval I rI (erase (unobj e)) = Some v /\ vty T v /\ (forall w, pv r n = Some w -> w = v).

  Definition fn_at (n : pnode) (e : expr) (r : env) : Prop :=
    exists rt a,
      match n with
      | NLambda ps _ body =>
          exists b vs, e = Node KFnDeclRec (TFn (rt :: a)) (Atom (PStr "<lambda>") :: b :: vs) /\ map vname vs = ps /\
            List.length ps = List.length a /\
            forall vals rI', Forall2 vty a vals -> bind ps vals (globals calls) = Some rI' ->
              exists v, eval I rI' (erase b) = Some v /\ vty rt v /\
                forall rp w, bind ps vals r = Some rp -> pv rp body = Some w -> w = v
      | NName x _ => e = mkVar x (TFn (rt :: a)) /\ fn_sig sigs x rt a = true
      | _ => False
      end.

  Definition P (n : pnode) : Prop := forall arg vars r rI s e s',
    parse sigs n s = (Ok e, s') -> incl (s_decls s') Ds -> incl (s_calls s') calls ->
    env_ok vars r rI -> tidy (unobj e) = true -> scoped sigs gs vars arg n = true ->
    sound_at n e r rI \/ (arg = true /\ fn_at n e r).

  Lemma P_val n vars r rI s e s' : P n -> parse sigs n s = (Ok e, s') -> incl (s_decls s') Ds -> incl (s_calls s') calls ->
    env_ok vars r rI -> tidy (unobj e) = true -> scoped sigs gs vars false n = true -> sound_at n e r rI.
  Proof. intros Q E I1 I2 EO T S. destruct (Q false vars r rI s e s' E I1 I2 EO T S) as [X|[? _]]; [exact X|discriminate]. Qed.

  (** a node whose operands are no functions *)
  Lemma eval2 k t a b rI va vb : is_call (Node k t [a; b]) = false -> k <> KLet -> k <> KIte -> k <> KVar -> k <> KNonTerm -> k <> KLit ->
    eval I rI (erase a) = Some va -> eval I rI (erase b) = Some vb ->
    eval I rI (erase (Node k t [a; b])) = op_val I k [va; vb].
  Proof.
    intros C N1 N2 N3 N4 N5 Ea Eb. rewrite erase_node by exact C. cbn [map]. destruct k; try congruence; try discriminate; cbn [eval mapO]; rewrite Ea, Eb; reflexivity.
  Qed.

  Lemma arith2_ok k l r e : mkArith2 k [l; r] = Ok e -> e = Node k TInt [l; r].
  Proof. unfold mkArith2. intros E. repeat mstep. reflexivity. Qed.
  Lemma arithN_ok k l r e : mkArithN k [l; r] = Ok e -> e = Node k TInt [l; r].
  Proof. unfold mkArithN. intros E. repeat mstep. reflexivity. Qed.
  Lemma boolN_ok k a l e : mkBoolN k (a :: l) = Ok e -> e = Node k TBool (a :: l) /\ Forall (fun x => type_of x = Ok TBool) (a :: l).
  Proof.
    unfold mkBoolN. intros E. mstep. injection E as <-. split; [reflexivity|].
    revert H0. generalize (a :: l). intros L. destruct x. induction L as [|y L IH]; intros E; constructor; cbn in E; apply bindR_ok in E as (t & T & E); destruct (ty_eqb t TBool) eqn:Q; try discriminate.
    - apply ty_eqb_eq in Q. congruence.
    - auto.
  Qed.

  Lemma step_op op a b : P a -> P b -> P (NOp op a b).
  Proof.
    intros Pa Pb arg vars r rI s e s' E I1 I2 EO TD SC. left. cbn [scoped] in SC. apply andb_true_iff in SC as [Sa Sb].
    cbn -[bindM op_node] in E. apply bindM_ok in E as (el & s1 & E1 & E). apply bindM_ok in E as (er & s2 & E2 & E). apply lift_ok in E as [E ->].
    pose proof (grows_of _ _ _ _ (mono_parse sigs b) E2) as [G1 G2].
    assert (J1 : incl (s_decls s1) Ds) by (eapply incl_tran; eauto). assert (J2 : incl (s_calls s1) calls) by (eapply incl_tran; eauto).
    assert (IA : tidy (unobj el) = true -> sound_at a el r rI) by (intros T; eapply P_val; eauto).
    assert (IB : tidy (unobj er) = true -> sound_at b er r rI) by (intros T; eapply P_val; eauto).
    assert (PLAIN : forall k t, e = Node k t [el; er] -> k <> KConstraint -> sound_at a el r rI /\ sound_at b er r rI /\ unobj el = el /\ unobj er = er /\ unobj e = e).
    { intros k t -> N. assert (U : unobj (Node k t [el; er]) = Node k t [el; er]) by (destruct k; auto). rewrite U in TD. cbn [tidy forallb] in TD.
      apply andb_true_iff in TD as [TD _]. apply andb_true_iff in TD as [T1 TD]. apply andb_true_iff in TD as [T2 _].
      pose proof (tidy_unobj _ T1) as U1. pose proof (tidy_unobj _ T2) as U2. rewrite U1 in IA. rewrite U2 in IB. repeat split; auto. }
    unfold op_node in E. apply bindR_ok in E as (tl & Tl & E). apply bindR_ok in E as (tr & Tr & E).
    destruct (ty_eqb tl TInt && ty_eqb tr TInt) eqn:CI.
    - apply andb_true_iff in CI as [C1 C2]. apply ty_eqb_eq in C1, C2. subst tl tr.
      assert (W : exists k, e = Node k TInt [el; er] /\ (k = KAdd \/ k = KSub \/ k = KMul \/ k = KDiv \/ k = KMod)).
      { unfold int_node in E. repeat (destruct (String.eqb op _); cbn [orb] in E; [first [apply arithN_ok in E|apply arith2_ok in E]; eauto 10|]); try discriminate. }
      destruct W as (k & Ek & Kk).
      destruct (PLAIN k TInt Ek) as (SA & SB & U1 & U2 & U3); [intuition congruence|].
      destruct SA as (T1 & v1 & t1 & _ & e1 & y1 & p1). destruct SB as (T2 & v2 & t2 & _ & e2 & y2 & p2).
      rewrite Tl in t1. rewrite Tr in t2. injection t1 as <-. injection t2 as <-. destruct y1 as [z1 ->], y2 as [z2 ->]. rewrite U1 in e1. rewrite U2 in e2.
      assert (EV : eval I rI (erase e) = op_val I k [VInt z1; VInt z2]).
      { rewrite Ek. apply eval2; auto; intuition (subst; auto; discriminate). }
      assert (VAL : exists z, op_val I k [VInt z1; VInt z2] = Some (VInt z) /\ forall w, py_op true op (VInt z1) (VInt z2) = Some w -> w = VInt z).
      { unfold int_node in E. unfold py_op.
        destruct (String.eqb op "+") eqn:O1; [apply arithN_ok in E; rewrite Ek in E; injection E as ->; exists (z1 + z2); split; [cbn; do 2 f_equal; lia|intros w W; congruence]|].
        destruct (String.eqb op "-") eqn:O2; [apply arith2_ok in E; rewrite Ek in E; injection E as ->; exists (z1 - z2); split; [cbn; do 2 f_equal; lia|intros w W; congruence]|].
        destruct (String.eqb op "*") eqn:O3; [apply arithN_ok in E; rewrite Ek in E; injection E as ->; exists (z1 * z2); split; [cbn; do 2 f_equal; lia|intros w W; congruence]|].
        destruct (String.eqb op "//" || String.eqb op "/") eqn:O4.
        { apply arith2_ok in E. rewrite Ek in E. injection E as ->. destruct (h_div_total I H z1 z2) as [q Q]. exists q. split; [cbn; now rewrite Q|].
          intros w W. destruct (String.eqb op "//").
          - destruct (0 <? z2) eqn:PZ; [|discriminate]. apply Z.ltb_lt in PZ. rewrite (h_div I H _ _ PZ) in Q. congruence.
          - destruct (String.eqb op "%") eqn:O5; [|discriminate]. cbn in O4. apply String.eqb_eq in O4, O5. congruence. }
        destruct (String.eqb op "%") eqn:O5; [|discriminate].
        apply arith2_ok in E. rewrite Ek in E. injection E as ->. destruct (h_mod_total I H z1 z2) as [q Q]. exists q. split; [cbn; now rewrite Q|].
        intros w W. apply orb_false_iff in O4 as [O4 _]. rewrite O4 in W. destruct (0 <? z2) eqn:PZ; [|discriminate]. apply Z.ltb_lt in PZ. rewrite (h_mod I H _ _ PZ) in Q. congruence. }
      destruct VAL as (z & VZ & VW). exists TInt, (VInt z). rewrite U3. split; [rewrite Ek; reflexivity|]. split; [rewrite Ek; reflexivity|]. split; [rewrite EV; exact VZ|].
      split; [eexists; reflexivity|]. intros w W. rewrite pv_op in W. destruct (pv r a) as [va|] eqn:PA; [|discriminate]. rewrite (p1 va eq_refl) in W.
      destruct (pv r b) as [vb|] eqn:PB; [|discriminate]. rewrite (p2 vb eq_refl) in W. apply VW, W.
    - clear CI. destruct (flat_list tl && flat_list tr) eqn:CL.
      + destruct (String.eqb op "+") eqn:O1; [|discriminate]. cbn in E. injection E as <-. cbn [robj unobj] in *.
        cbn -[smem] in TD. rewrite !andb_true_iff in TD. destruct TD as [[T1 [T2 _]] _].
        specialize (IA T1). specialize (IB T2). destruct IA as (X1 & v1 & t1 & u1 & e1 & y1 & p1). destruct IB as (X2 & v2 & t2 & u2 & e2 & y2 & p2).
        rewrite Tl in t1. rewrite Tr in t2. injection t1 as <-. injection t2 as <-. apply andb_true_iff in CL as [F1 F2].
        assert (L1 : exists l, v1 = vl l) by (destruct tl as [| |[| |[]| | | | |]| | | | |]; cbn in y1, F1; try contradiction; try discriminate; exact y1).
        assert (L2 : exists l, v2 = vl l) by (destruct tr as [| |[| |[]| | | | |]| | | | |]; cbn in y2, F2; try contradiction; try discriminate; exact y2).
        destruct L1 as [l1 ->], L2 as [l2 ->]. exists (TList TInt), (vl (l1 ++ l2)). split; [reflexivity|]. split; [reflexivity|]. split; [|split; [eexists; reflexivity|]].
        * cbn [unobj]. rewrite <- (list_concat_is I B l1 l2). apply eval_call. cbn [map mapO].
          rewrite (aerase_val _ _ _ _ e1), (aerase_val _ _ _ _ e2). reflexivity.
        * intros w W. rewrite pv_op in W. destruct (pv r a) as [va|] eqn:PA; [|discriminate]. rewrite (p1 va eq_refl) in W.
          destruct (pv r b) as [vb|] eqn:PB; [|discriminate]. rewrite (p2 vb eq_refl) in W. cbn in W. rewrite O1 in W. injection W as <-. unfold vl. now rewrite map_app.
      + destruct (ty_eqb tl TBool && ty_eqb tr TBool) eqn:CB; [|discriminate]. apply andb_true_iff in CB as [C1 C2]. apply ty_eqb_eq in C1, C2. subst tl tr.
        assert (W : exists k, e = Node k TBool [el; er] /\ (k = KAnd /\ op = "and" \/ k = KOr /\ op = "or")).
        { destruct (String.eqb op "and") eqn:O1; [apply boolN_ok in E as [E _]; apply String.eqb_eq in O1; eauto 10|].
          destruct (String.eqb op "or") eqn:O2; [apply boolN_ok in E as [E _]; apply String.eqb_eq in O2; eauto 10|discriminate]. }
        destruct W as (k & Ek & Kk). destruct (PLAIN k TBool Ek) as (SA & SB & U1 & U2 & U3); [intuition congruence|].
        destruct SA as (T1 & v1 & t1 & _ & e1 & y1 & p1). destruct SB as (T2 & v2 & t2 & _ & e2 & y2 & p2).
        rewrite Tl in t1. rewrite Tr in t2. injection t1 as <-. injection t2 as <-. destruct y1 as [z1 ->], y2 as [z2 ->]. rewrite U1 in e1. rewrite U2 in e2.
        assert (EV : eval I rI (erase e) = op_val I k [VBool z1; VBool z2]).
        { rewrite Ek. apply eval2; auto; intuition (subst; auto; discriminate). }
        assert (R : exists q, op_val I k [VBool z1; VBool z2] = Some (VBool q) /\ forall w, pv r (NOp op a b) = Some w -> w = VBool q).
        { destruct Kk as [[-> ->]|[-> ->]]; eexists; (split; [reflexivity|]); intros w W; rewrite pv_op in W;
            (destruct (pv r a) as [va|] eqn:PA; [|discriminate]); rewrite (p1 va eq_refl) in W; cbn in W; destruct z1; cbn;
            try (injection W as <-; reflexivity); (destruct (pv r b) as [vb|] eqn:PB; [|discriminate]); rewrite (p2 vb eq_refl) in W; injection W as <-; now destruct z2. }
        destruct R as (q & Q1 & Q2). exists TBool, (VBool q). rewrite U3. split; [rewrite Ek; reflexivity|]. split; [rewrite Ek; reflexivity|].
        split; [now rewrite EV|]. split; [eexists; reflexivity|exact Q2].
  Qed.

  Lemma step_name x t : P (NName x t).
  Proof.
    intros arg vars r rI s e s' E I1 I2 EO TD SC. cbn -[bindM] in E. apply bindM_ok in E as (o & s1 & E1 & E). apply lift_ok in E1 as [E1 ->].
    cbn [scoped] in SC. rewrite E1 in SC. destruct o as [t'|]; [|discriminate]. apply lift_ok in E as [E ->].
    assert (Q : (exists rt a, t' = TFn (rt :: a)) \/
      match dget vars x with Some tx => ty_eqb tx t' && fo tx | None => false end = true).
    { destruct t'; try (right; exact SC). destruct ts as [|rt a]; [right; exact SC|left; eauto]. }
    destruct Q as [(rt & a & ->)|Q].
    - right. rewrite !andb_true_iff in SC. destruct SC as [[-> _] F]. split; [reflexivity|]. cbn in E. injection E as <-.
      exists rt, a. split; [reflexivity|exact F].
    - left. clear SC. destruct (dget vars x) as [tx|] eqn:DX; [|discriminate]. apply andb_true_iff in Q as [Q F]. apply ty_eqb_eq in Q. subst tx.
      destruct (proj1 EO _ _ DX) as (v & R1 & R2 & V).
      assert (W : e = mkVar x t') by (destruct t' as [| | | | |[]| |]; try discriminate; cbn in E; congruence). subst e.
      exists t', v. repeat split; auto. intros w W. unfold pvalue in W. cbn [peval] in W. rewrite R1 in W. cbn in W. congruence.
  Qed.
  Lemma step_int z : P (NInt z).
  Proof.
    intros arg vars r rI s e s' E I1 I2 EO TD SC. left. apply ret_ok in E as [-> ->]. exists TInt, (VInt z).
    repeat split; try (eexists; reflexivity). intros w W. cbn in W. congruence.
  Qed.
  Lemma step_unary op a : P (NUnary op a).
  Proof.
    intros arg vars r rI s e s' E I1 I2 EO TD SC. exfalso. cbn -[bindM unary_node] in E. destruct (String.eqb op "-") eqn:O; [|discriminate].
    apply bindM_ok in E as (ea & s1 & E1 & E). apply lift_ok in E as [E ->]. unfold unary_node in E. rewrite O in E. cbn [bindR] in E.
    apply bindR_ok in E as (t & T & E). destruct (ty_eqb t TInt); [|discriminate]. apply arith2_ok in E. subst e. discriminate TD.
  Qed.
  Lemma step_list l t : P (NList l t).
  Proof.
    intros arg vars r rI s e s' E I1 I2 EO TD SC. left. apply lift_ok in E as [E ->]. cbn [scoped] in SC. apply andb_true_iff in SC as [_ F].
    unfold list_node in E. apply bindR_ok in E as (o & T & E). rewrite T in F. destruct o as [[]|]; try discriminate. cbn -[fo] in E. injection E as <-.
    assert (W : forall w, pv r (NList l t) = Some w -> w = VList []).
    { intros w W. rewrite pv_list in W. destruct l; [cbn in W; congruence|discriminate]. }
    destruct t0 as [| |[]| | | | |]; try discriminate.
    - exists (TList TInt), (VList []). repeat split; auto; [|now exists []]. exact (list_empty_is I B).
    - exists (TList (TList TInt)), (VList []). repeat split; auto; [|now exists []]. exact (matrix_empty_is I B).
  Qed.
  Lemma step_cond c a b : P c -> P a -> P b -> P (NCond c a b).
  Proof.
    intros Pc Pa Pb arg vars r rI s e s' E I1 I2 EO TD SC. left. cbn [scoped] in SC. apply andb_true_iff in SC as [SC Sb]. apply andb_true_iff in SC as [Sc Sa].
    cbn -[bindM cond_node] in E. apply bindM_ok in E as (ec & s1 & E1 & E). apply bindM_ok in E as (ea & s2 & E2 & E). apply bindM_ok in E as (eb & s3 & E3 & E). apply lift_ok in E as [E ->].
    pose proof (grows_of _ _ _ _ (mono_parse sigs b) E3) as G3. pose proof (grows_of _ _ _ _ (mono_parse sigs a) E2) as G2. pose proof (grows_trans _ _ _ G2 G3) as G1.
    destruct G1 as [G1 G1'], G3 as [G3 G3'].
    unfold cond_node in E. apply bindR_ok in E as (t & Ta & E). apply bindR_ok in E as (i & Ti & E). apply bindR_ok in E as (o & To & E). injection E as <-.
    assert (Oi : o_src o = i).
    { clear - To. unfold create_object in To. destruct t; try (injection To as <-; reflexivity); try (apply bindR_ok in To as (te & _ & To); destruct (ty_eqb te _); [injection To as <-; reflexivity|discriminate]).
      destruct i as [|[] ? ?]; try discriminate; injection To as <-; reflexivity. }
    rewrite Oi in *. clear To Oi o. unfold mkIte in Ti. apply bindR_ok in Ti as (tc & Tc & Ti). destruct (ty_eqb tc TBool) eqn:Qc; [|discriminate]. apply ty_eqb_eq in Qc. subst tc. cbn [negb] in Ti.
    apply bindR_ok in Ti as (ta & Ta' & Ti). apply bindR_ok in Ti as (tb & Tb & Ti). destruct (ty_eqb ta tb) eqn:Q; [|discriminate]. apply ty_eqb_eq in Q. subst tb. injection Ti as <-.
    cbn [unobj tidy forallb] in TD. rewrite !andb_true_iff in TD. destruct TD as [(T1 & T2 & T3 & _) _].
    assert (SA : sound_at a ea r rI) by (eapply P_val; eauto; eapply incl_tran; eauto).
    assert (SB : sound_at b eb r rI) by (eapply P_val; eauto).
    assert (SCc : sound_at c ec r rI) by (eapply P_val; eauto; eapply incl_tran; eauto).
    destruct SA as (X1 & v1 & t1 & u1 & e1 & y1 & p1). destruct SB as (X2 & v2 & t2 & u2 & e2 & y2 & p2). destruct SCc as (X3 & v3 & t3 & u3 & e3 & y3 & p3).
    rewrite Ta' in u1. injection u1 as <-. rewrite Tb in u2. injection u2 as <-. rewrite Tc in u3. injection u3 as <-. destruct y3 as [q ->].
    exists ta, (if q then v1 else v2). repeat split; auto.
    - cbn [unobj]. rewrite erase_node by reflexivity. cbn [map eval]. rewrite e3. now destruct q.
    - now destruct q.
    - intros w W. rewrite pv_cond in W. destruct (pv r c) as [vc|] eqn:PC; [|discriminate]. rewrite (p3 _ eq_refl) in W. destruct q; auto.
  Qed.

  (** comparisons *)
  Lemma clause_sound op a b ea eb e r rI : sound_at a ea r rI -> sound_at b eb r rI -> unobj ea = ea -> unobj eb = eb -> clause op ea eb = Ok e ->
    exists q, eval I rI (erase e) = Some (VBool q) /\ type_of e = Ok TBool /\ unobj e = e /\
      forall va vb w, pv r a = Some va -> pv r b = Some vb -> py_cmp op va vb = Some w -> w = q.
  Proof.
    intros (T1 & v1 & t1 & _ & e1 & y1 & p1) (T2 & v2 & t2 & _ & e2 & y2 & p2) U1 U2 E. rewrite U1 in e1. rewrite U2 in e2.
    unfold clause in E. rewrite t1, t2 in E. cbn [bindR] in E.
    assert (EQ : T1 = T2 -> eval I rI (erase (Node KEq TBool [ea; eb])) = Some (VBool (val_eqb v1 v2)) /\
      (forall w, py_cmp "==" v1 v2 = Some w -> w = val_eqb v1 v2) /\ (forall w, py_cmp "!=" v1 v2 = Some w -> w = negb (val_eqb v1 v2))).
    { intros <-. split; [rewrite (eval2 KEq TBool ea eb rI v1 v2); auto; discriminate|].
      destruct T1 as [| |[| |[]| | | | |]| | | | |]; cbn in y1, y2; try contradiction; destruct y1 as [? ->], y2 as [? ->]; cbn; split; intros w W; congruence. }
    destruct (String.eqb op "==") eqn:O1.
    { destruct (ty_eqb T1 T2) eqn:Q; [|discriminate]. apply ty_eqb_eq in Q. cbn in E. injection E as <-. apply String.eqb_eq in O1. subst op.
      destruct (EQ Q) as (V1 & V2 & _). exists (val_eqb v1 v2). repeat split; auto. intros va vb w -> %p1 -> %p2. auto. }
    destruct (ty_eqb T1 TInt) eqn:Q1; [|discriminate]. destruct (ty_eqb T2 TInt) eqn:Q2; [|discriminate]. cbn in E. apply ty_eqb_eq in Q1, Q2. subst T1 T2.
    destruct y1 as [z1 ->], y2 as [z2 ->].
    assert (CMP : forall k f, (k = KGt /\ f = (z2 <? z1) \/ k = KLt /\ f = (z1 <? z2) \/ k = KGe /\ f = (z2 <=? z1) \/ k = KLe /\ f = (z1 <=? z2)) -> mkCmp k [ea; eb] = Ok e ->
      eval I rI (erase e) = Some (VBool f) /\ type_of e = Ok TBool /\ unobj e = e).
    { intros k f K M. unfold mkCmp in M. rewrite t1, t2 in M. cbn in M. injection M as <-. split; [|split; [reflexivity|]]; [|now destruct K as [[-> _]|[[-> _]|[[-> _]|[-> _]]]]].
      rewrite (eval2 k TBool ea eb rI (VInt z1) (VInt z2)); auto; destruct K as [[-> ->]|[[-> ->]|[[-> ->]|[-> ->]]]]; auto; discriminate. }
    destruct (String.eqb op ">") eqn:O2.
    { apply String.eqb_eq in O2. subst op. destruct (CMP KGt (z2 <? z1)) as (V1 & V2 & V3); auto. exists (z2 <? z1). repeat split; auto. intros va vb w -> %p1 -> %p2 W. cbn in W. congruence. }
    destruct (String.eqb op "<") eqn:O3.
    { apply String.eqb_eq in O3. subst op. destruct (CMP KLt (z1 <? z2)) as (V1 & V2 & V3); auto. exists (z1 <? z2). repeat split; auto. intros va vb w -> %p1 -> %p2 W. cbn in W. congruence. }
    destruct (String.eqb op ">=") eqn:O4.
    { apply String.eqb_eq in O4. subst op. destruct (CMP KGe (z2 <=? z1)) as (V1 & V2 & V3); auto. exists (z2 <=? z1). repeat split; auto. intros va vb w -> %p1 -> %p2 W. cbn in W. congruence. }
    destruct (String.eqb op "<=") eqn:O5.
    { apply String.eqb_eq in O5. subst op. destruct (CMP KLe (z1 <=? z2)) as (V1 & V2 & V3); auto 10. exists (z1 <=? z2). repeat split; auto. intros va vb w -> %p1 -> %p2 W. cbn in W. congruence. }
    destruct (String.eqb op "!=") eqn:O6; [|discriminate]. apply String.eqb_eq in O6. subst op. cbn in E. injection E as <-.
    destruct (EQ eq_refl) as (V1 & _ & V3). exists (negb (val_eqb (VInt z1) (VInt z2))). repeat split; auto.
    - rewrite erase_node by reflexivity. cbn [map]. cbn [eval mapO]. rewrite V1. reflexivity.
    - intros va vb w -> %p1 -> %p2. auto.
  Qed.
  Lemma tidy_clause op ea eb e : clause op ea eb = Ok e -> tidy e = true -> tidy ea = true /\ tidy eb = true.
  Proof.
    intros E T. unfold clause in E. apply bindR_ok in E as (tl & Tl & E). apply bindR_ok in E as (tr & Tr & E).
    assert (Q : forall k, k <> KConstraint -> tidy (Node k TBool [ea; eb]) = true -> tidy ea = true /\ tidy eb = true).
    { intros k K X. cbn [tidy forallb] in X. rewrite !andb_true_iff in X. tauto. }
    assert (C : forall k, k <> KConstraint -> mkCmp k [ea; eb] = Ok e -> tidy ea = true /\ tidy eb = true).
    { intros k K X. unfold mkCmp in X. rewrite Tl, Tr in X. cbn [bindR] in X. destruct (ty_eqb tl tr); [|discriminate]. injection X as <-. eauto. }
    destruct (String.eqb op "=="); [destruct (ty_eqb tl tr); [|discriminate]; cbn in E; injection E as <-; eapply (Q KEq); [discriminate|exact T]|].
    destruct (negb _ || negb _); [discriminate|].
    destruct (String.eqb op ">"); [eapply (C KGt); [discriminate|exact E]|].
    destruct (String.eqb op "<"); [eapply (C KLt); [discriminate|exact E]|].
    destruct (String.eqb op ">="); [eapply (C KGe); [discriminate|exact E]|].
    destruct (String.eqb op "<="); [eapply (C KLe); [discriminate|exact E]|].
    destruct (String.eqb op "!="); [|discriminate]. cbn in E. injection E as <-. apply (Q KEq); [discriminate|]. cbn [tidy forallb] in T. rewrite !andb_true_iff in T. cbn [tidy forallb]. rewrite !andb_true_iff. tauto.
  Qed.

  Lemma clauses_sound vars r rI : env_ok vars r rI -> forall ops l s cs s', Forall P l ->
    clauses ops (map (parse sigs) l) s = (Ok cs, s') -> incl (s_decls s') Ds -> incl (s_calls s') calls ->
    forallb tidy cs = true -> forallb (scoped sigs gs vars false) l = true ->
    exists qs, mapO (eval I rI) (map erase cs) = Some (map VBool qs) /\ Forall (fun c => type_of c = Ok TBool /\ unobj c = c) cs /\
      List.length qs = List.length ops /\
      forall a rest w, l = a :: rest -> ops <> [] -> py_chain (pv r a) (map (pv r) rest) ops = Some w -> w = VBool (forallb (fun x => x) qs).
  Proof.
    intros EO. induction ops as [|op ops IH]; intros l s cs s' F E I1 I2 TD SC.
    { cbn in E. injection E as <- <-. exists []. repeat split; auto. congruence. }
    destruct l as [|a [|b rest]]; [discriminate|discriminate|]. cbn [map clauses] in E.
    apply bindM_ok in E as (ea & s1 & E1 & E). apply bindM_ok in E as (eb & s2 & E2 & E). apply bindM_ok in E as (c & s3 & E3 & E). apply lift_ok in E3 as [E3 ->].
    apply bindM_ok in E as (cs' & s4 & E4 & E). apply ret_ok in E as [-> ->].
    pose proof (grows_of _ _ _ _ (mono_parse sigs b) E2) as G2.
    assert (G3 : grows s2 s4) by (refine (grows_of _ _ _ _ (mono_clauses ops _ _) E4); apply Forall_forall; intros m M; change (parse sigs b :: map (parse sigs) rest) with (map (parse sigs) (b :: rest)) in M; apply in_map_iff in M as (n & <- & _); apply mono_parse).
    pose proof (grows_trans _ _ _ G2 G3) as [G1 G1']. destruct G3 as [G3 G3'].
    cbn [forallb] in TD. apply andb_true_iff in TD as [T1 T2]. destruct (tidy_clause _ _ _ _ E3 T1) as [Ta Tb].
    pose proof (tidy_unobj _ Ta) as Ua. pose proof (tidy_unobj _ Tb) as Ub.
    inversion F as [|? ? Pa F']; subst. inversion F' as [|? ? Pb _]; subst. cbn [forallb] in SC. apply andb_true_iff in SC as [Sa SC]. pose proof SC as SC'. apply andb_true_iff in SC as [Sb _].
    assert (SA : sound_at a ea r rI) by (eapply P_val; eauto; try (eapply incl_tran; eauto); now rewrite Ua).
    assert (SB : sound_at b eb r rI) by (eapply P_val; eauto; try (eapply incl_tran; eauto); now rewrite Ub).
    destruct (clause_sound _ _ _ _ _ _ _ _ SA SB Ua Ub E3) as (q & V1 & V2 & V3 & V4).
    destruct (IH (b :: rest) _ _ _ F' E4 I1 I2 T2 SC') as (qs & W1 & W2 & W3 & W4).
    exists (q :: qs). split; [cbn [map mapO]; rewrite V1, W1; reflexivity|]. split; [constructor; auto|]. split; [cbn; congruence|].
    intros a0 rest0 w L _ W. injection L as <- <-. cbn [map py_chain] in W. destruct (pv r a) as [va|] eqn:PA; [|discriminate]. destruct (pv r b) as [vb|] eqn:PB; [|discriminate].
    destruct (py_cmp op va vb) as [x|] eqn:PC; [|discriminate]. rewrite <- (V4 va vb x eq_refl eq_refl PC). cbn [forallb]. destruct x; [|cbn; congruence]. cbn [andb].
    destruct ops as [|op' ops]; [destruct qs; [|discriminate]; cbn; congruence|]. eapply W4; [reflexivity|discriminate|rewrite PB; exact W].
  Qed.
  Lemma mapO_bools qs : mapO as_bool (map VBool qs) = Some qs.
  Proof. induction qs as [|q qs IH]; [reflexivity|]. cbn. now rewrite IH. Qed.
  Lemma step_cmp l ops : Forall P l -> P (NCmp l ops).
  Proof.
    intros F arg vars r rI s e s' E I1 I2 EO TD SC. left. cbn [scoped] in SC. cbn -[bindM clauses conj] in E. apply bindM_ok in E as (cs & s1 & E1 & E). apply lift_ok in E as [E ->].
    assert (Q : (exists c, cs = [c] /\ e = c) \/ (cs <> [] /\ e = Node KAnd TBool cs)).
    { unfold conj in E. destruct cs as [|c [|c' cs]]; [discriminate|left; eexists; split; [reflexivity|congruence]|right; apply boolN_ok in E as [-> _]; split; [discriminate|reflexivity]]. }
    assert (TC : forallb tidy cs = true).
    { destruct Q as [(c & -> & ->)|[_ ->]].
      - cbn. rewrite andb_true_r. destruct ops as [|op ops]; [cbn in E1; discriminate|]. destruct l as [|a [|b rest]]; [discriminate|discriminate|]. cbn [map clauses] in E1.
        apply bindM_ok in E1 as (ea & s2 & _ & E1). apply bindM_ok in E1 as (eb & s3 & _ & E1). apply bindM_ok in E1 as (c' & s4 & E3 & E1). apply lift_ok in E3 as [E3 ->].
        apply bindM_ok in E1 as (cs' & s5 & _ & E1). apply ret_ok in E1 as [X _]. injection X as -> _.
        assert (N : forall t args, c' <> Node KConstraint t args).
        { intros t args ->. clear - E3. unfold clause in E3. repeat (apply bindR_ok in E3 as (? & ? & E3)).
          repeat match type of E3 with context [String.eqb op ?x] => destruct (String.eqb op x) end;
            repeat match type of E3 with context [ty_eqb ?x ?y] => destruct (ty_eqb x y) end; cbn in E3; try discriminate; unfold mkCmp in E3; repeat (apply bindR_ok in E3 as (? & ? & E3));
            repeat match type of E3 with context [ty_eqb ?x ?y] => destruct (ty_eqb x y) end; discriminate. }
        destruct c' as [|k t args]; [reflexivity|]. destruct k; try exact TD. now destruct (N t args).
      - cbn [unobj tidy] in TD. now apply andb_true_iff in TD as [TD _]. }
    destruct (clauses_sound vars r rI EO ops l s cs s1 F E1 I1 I2 TC SC) as (qs & W1 & W2 & W3 & W4).
    assert (PY : forall w, pv r (NCmp l ops) = Some w -> ops <> [] -> w = VBool (forallb (fun x => x) qs)).
    { intros w W N. rewrite pv_cmp in W. destruct l as [|a rest]; [discriminate|]. eapply W4; eauto. }
    assert (ON : ops <> []).
    { intros ->. cbn in E1. injection E1 as <- <-. destruct Q as [(c & X & _)|[X _]]; congruence. }
    exists TBool, (VBool (forallb (fun x => x) qs)). destruct Q as [(c & -> & ->)|[N ->]].
    - inversion W2 as [|? ? [Tc Uc] _]; subst. rewrite Uc. cbn [map mapO] in W1. destruct (eval I rI (erase c)) eqn:EC; [|discriminate].
      injection W1 as W1. destruct qs as [|q [|]]; try discriminate. injection W1 as ->. repeat split; auto; [cbn; now rewrite andb_true_r|eexists; reflexivity].
    - repeat split; auto; [|eexists; reflexivity]. cbn [unobj]. rewrite erase_node by reflexivity. cbn [eval]. rewrite W1. cbn [op_val]. rewrite mapO_bools.
      destruct qs as [|q qs]; [destruct ops; [congruence|discriminate]|reflexivity].
  Qed.

  (** indices and slices *)
  Lemma create_src t e o : create_object t e = Ok o -> o_src o = e.
  Proof.
    unfold create_object. intros E. destruct t; try (injection E as <-; reflexivity); try (apply bindR_ok in E as (te & _ & E); destruct (ty_eqb te _); [injection E as <-; reflexivity|discriminate]).
    destruct e as [|[] ? ?]; try discriminate; injection E as <-; reflexivity.
  Qed.
  Lemma call_src f t args o : call f t args = Ok o -> o_src o = Node KCall t (Atom (PStr f) :: map o_src args).
  Proof. unfold call, mkCall. cbn [bindR]. apply create_src. Qed.
  Lemma base_is b o : base_object b = Ok o -> type_of b = Ok (o_ty o) /\ o_src o = b /\ unobj b = b.
  Proof.
    unfold base_object. intros E. apply bindR_ok in E as (t & T & E). destruct (is_obj b) eqn:OB; [discriminate|].
    assert (C : create_object t b = Ok o).
    { destruct t; auto. destruct b as [|[] ? ?]; try discriminate; exact E. }
    split; [|split].
    - rewrite T. f_equal. clear - C. unfold create_object in C. destruct t; try (injection C as <-; reflexivity); try (apply bindR_ok in C as (te & _ & C); destruct (ty_eqb te _); [injection C as <-; reflexivity|discriminate]).
      destruct b as [|[] ? ?]; try discriminate; injection C as <-; reflexivity.
    - eapply create_src; eauto.
    - destruct b as [|k ? ?]; [reflexivity|]. now destruct k.
  Qed.
  Lemma int_at n e r rI : sound_at n e r rI -> has_type TInt (unobj e) = true ->
    exists z, eval I rI (erase (unobj e)) = Some (VInt z) /\ forall w, pv r n = Some w -> w = VInt z.
  Proof.
    intros (T & v & t1 & t2 & e1 & y & p) HT. destruct (unobj e) as [|k t args]; [discriminate|]. cbn in HT. apply ty_eqb_eq in HT. cbn in t2. injection t2 as <-. subst t.
    destruct y as [z ->]. eauto.
  Qed.
  Lemma list_ty t c v : contained t = Ok c -> vty t v ->
    (t = TList TInt /\ exists l, v = vl l) \/ (t = TList (TList TInt) /\ exists m, v = vm m).
  Proof. destruct t as [| |[| |[]| | | | |]| | | | |]; cbn; intros E Y; try discriminate; try contradiction; auto. Qed.

  Lemma step_index b i : P b -> P i -> P (NIndex b i).
  Proof.
    intros Pb Pi arg vars r rI s e s' E I1 I2 EO TD SC. left. cbn [scoped] in SC. apply andb_true_iff in SC as [Sb Si].
    cbn -[bindM index_node base_object] in E. apply bindM_ok in E as (eb & s1 & E1 & E). apply bindM_ok in E as (o & s2 & E2 & E). apply lift_ok in E2 as [E2 ->].
    apply bindM_ok in E as (ei & s3 & E3 & E). apply lift_ok in E as [E ->]. unfold index_node in E. rewrite E2 in E. cbn [bindR] in E.
    pose proof (grows_of _ _ _ _ (mono_parse sigs i) E3) as [G G'].
    destruct (base_is _ _ E2) as (Tb & Ob & Ub). apply bindR_ok in E as (o' & E & X). injection X as <-.
    unfold getitem in E. apply bindR_ok in E as (c & C & E). pose proof (call_src _ _ _ _ E) as Q. cbn [map o_src] in Q. rewrite Ob in Q. rewrite Q in *. clear E Q.
    assert (TT : tidy eb = true /\ tidy (unobj ei) = true /\ (smem (shape_name (o_ty o) "matrix_get" "tensor3d_get" "list_get") indexing = true -> has_type TInt (unobj ei) = true)).
    { cbn [unobj tidy forallb] in TD. rewrite !andb_true_iff in TD. destruct TD as [(_ & T1 & T2 & _) T3]. repeat split; auto.
      intros S1. rewrite S1 in T3. cbn in T3. now rewrite andb_true_r in T3. }
    destruct TT as (T1 & T2 & T3).
    assert (SB : sound_at b eb r rI) by (eapply P_val; eauto; try (eapply incl_tran; eauto); now rewrite Ub).
    assert (SI : sound_at i ei r rI) by (eapply P_val; eauto).
    destruct SB as (T & v & t1 & _ & e1 & y & p). rewrite Tb in t1. injection t1 as <-. rewrite Ub in e1. cbn [unobj].
    destruct (list_ty _ _ _ C y) as [[Q [l ->]]|[Q [m ->]]]; rewrite Q in *; cbn in C; injection C as <-; cbn [shape_name] in *.
    - destruct (int_at _ _ _ _ SI (T3 eq_refl)) as (z & ez & pz). destruct (list_get_is I B l z) as (x & L1 & L2).
      exists TInt, (VInt x). split; [reflexivity|]. split; [reflexivity|]. split; [|split; [eexists; reflexivity|]].
      + rewrite <- L1. apply eval_call. cbn [map mapO]. rewrite (aerase_val _ _ _ _ e1), (aerase_val _ _ _ _ ez). reflexivity.
      + intros w W. rewrite pv_index in W. destruct (pv r b) as [vb|] eqn:PB; [|discriminate]. rewrite (p _ eq_refl) in W. destruct (pv r i) as [vi|] eqn:PI; [|discriminate]. rewrite (pz _ eq_refl) in W.
        cbn in W. destruct (z <? 0) eqn:Z0; [discriminate|]. apply Z.ltb_ge in Z0. rewrite py_index_map in W. destruct (py_index l z) as [x'|] eqn:PX; [|discriminate]. cbn in W. rewrite (L2 _ Z0 eq_refl) in W. congruence.
    - destruct (int_at _ _ _ _ SI (T3 eq_refl)) as (z & ez & pz). destruct (matrix_get_is I B m z) as (x & L1 & L2).
      exists (TList TInt), (vl x). split; [reflexivity|]. split; [reflexivity|]. split; [|split; [eexists; reflexivity|]].
      + rewrite <- L1. apply eval_call. cbn [map mapO]. rewrite (aerase_val _ _ _ _ e1), (aerase_val _ _ _ _ ez). reflexivity.
      + intros w W. rewrite pv_index in W. destruct (pv r b) as [vb|] eqn:PB; [|discriminate]. rewrite (p _ eq_refl) in W. destruct (pv r i) as [vi|] eqn:PI; [|discriminate]. rewrite (pz _ eq_refl) in W.
        cbn in W. destruct (z <? 0) eqn:Z0; [discriminate|]. apply Z.ltb_ge in Z0. rewrite py_index_map in W. destruct (py_index m z) as [x'|] eqn:PX; [|discriminate]. cbn in W. rewrite <- (L2 _ Z0 eq_refl). congruence.
  Qed.

  (** a bound of a slice that has been read *)
  Lemma opt_ok o s e s' : match o with Some n => x <-- parse sigs n ;; ret (Some x) | None => ret None end s = (Ok e, s') ->
    grows s s' /\ match o, e with Some n, Some x => parse sigs n s = (Ok x, s') | None, None => s' = s | _, _ => False end.
  Proof.
    destruct o as [n|]; intros E.
    - apply bindM_ok in E as (x & s1 & E1 & E). apply ret_ok in E as [-> ->]. split; [exact (grows_of _ _ _ _ (mono_parse sigs n) E1)|exact E1].
    - apply ret_ok in E as [-> ->]. split; [apply grows_refl|reflexivity].
  Qed.
  Lemma pbound_int n z r : (forall w, pv r n = Some w -> w = VInt z) -> forall k, pbound true D nm r (Some n) = Some k -> k = Some z /\ 0 <= z.
  Proof.
    intros Q k E. cbn in E. destruct (pv r n) as [w|] eqn:W; [|discriminate]. rewrite (Q _ eq_refl) in E. cbn in E. destruct (z <? 0) eqn:Z0; [discriminate|]. apply Z.ltb_ge in Z0. split; congruence.
  Qed.
  Lemma step_slice b i j k : P b -> optP P i -> optP P j -> P (NSlice b i j k).
  Proof.
    intros Pb Pi Pj arg vars r rI s e s' E I1 I2 EO TD SC. left. cbn [scoped] in SC. rewrite !andb_true_iff in SC. destruct SC as [[[Sb Si] Sj] _].
    cbn -[bindM slice_node base_object] in E. apply bindM_ok in E as (eb & s1 & E1 & E). apply bindM_ok in E as (o & s2 & E2 & E). apply lift_ok in E2 as [E2 ->].
    apply bindM_ok in E as (ei & s3 & E3 & E). apply bindM_ok in E as (ej & s4 & E4 & E). apply lift_ok in E as [E ->].
    apply opt_ok in E3 as [G3 E3]. apply opt_ok in E4 as [G4 E4]. pose proof (grows_trans _ _ _ G3 G4) as [G G']. destruct G4 as [G4 G4'].
    destruct (base_is _ _ E2) as (Tb & Ob & Ub).
    assert (SB : tidy eb = true -> sound_at b eb r rI) by (intros T1; eapply P_val; eauto; try (eapply incl_tran; eauto); now rewrite Ub).
    assert (SI : match i, ei with Some n, Some x => tidy (unobj x) = true -> sound_at n x r rI | None, None => True | _, _ => False end).
    { destruct i as [n|], ei as [x|]; auto. intros T1. eapply P_val; eauto; eapply incl_tran; eauto. }
    assert (SJ : match j, ej with Some n, Some x => tidy (unobj x) = true -> sound_at n x r rI | None, None => True | _, _ => False end).
    { destruct j as [n|], ej as [x|]; auto. intros T1. eapply P_val; eauto. }
    unfold slice_node in E.
    assert (PS : forall w, pv r (NSlice b i j k) = Some w -> exists l x y, pv r b = Some (VList l) /\ pbound true D nm r i = Some x /\ pbound true D nm r j = Some y /\ w = VList (py_slice l x y)).
    { intros w W. rewrite pv_slice in W. destruct (pv r b) as [[]|]; try discriminate. destruct (pbound true D nm r i); [|discriminate]. destruct (pbound true D nm r j); [|discriminate].
      destruct (pbound true D nm r k) as [[]|]; try discriminate. eexists _, _, _. repeat split. congruence. }
    destruct i as [ni|], ei as [xi|]; try contradiction; destruct j as [nj|], ej as [xj|]; try contradiction; try discriminate; cbn [option_map] in E;
      apply bindR_ok in E as (o' & E & X); injection X as <-; unfold getitem in E; apply bindR_ok in E as (c & C & E); pose proof (call_src _ _ _ _ E) as Q; cbn [map o_src sarg_obj] in Q; rewrite Ob in Q; rewrite Q in *; clear E Q.
    - assert (TT : tidy eb = true /\ tidy (unobj xi) = true /\ tidy (unobj xj) = true /\ (smem (shape_name (o_ty o) "matrix_row_slice" "tensor3d_slice" "vec_slice") indexing = true -> has_type TInt (unobj xi) = true /\ has_type TInt (unobj xj) = true)).
      { cbn [unobj tidy forallb] in TD. rewrite !andb_true_iff in TD. destruct TD as [(_ & T1 & T2 & T4 & _) T3]. split; [exact T1|]. split; [exact T2|]. split; [exact T4|].
        intros S1. rewrite S1 in T3. cbn in T3. rewrite !andb_true_iff in T3. tauto. }
      destruct TT as (T1 & T2 & T4 & T3). specialize (SB T1). specialize (SI T2). specialize (SJ T4).
      destruct SB as (T & v & t1 & _ & e1 & y & p). rewrite Tb in t1. injection t1 as <-. rewrite Ub in e1. cbn [unobj].
      destruct (list_ty _ _ _ C y) as [[Q [l ->]]|[Q [m ->]]]; rewrite Q in *; cbn in C; injection C as <-; cbn [shape_name] in *; destruct (T3 eq_refl) as [H1 H2];
        destruct (int_at _ _ _ _ SI H1) as (zi & ezi & pzi); destruct (int_at _ _ _ _ SJ H2) as (zj & ezj & pzj).
      + destruct (vec_slice_is I B l zi zj) as (x & L1 & L2). exists (TList TInt), (vl x). split; [reflexivity|]. split; [reflexivity|]. split; [|split; [eexists; reflexivity|]].
        * rewrite <- L1. apply eval_call. cbn [map mapO]. rewrite (aerase_val _ _ _ _ e1), (aerase_val _ _ _ _ ezi), (aerase_val _ _ _ _ ezj). reflexivity.
        * intros w W. destruct (PS w W) as (l' & a1 & a2 & W1 & W2 & W3 & ->). apply p in W1. injection W1 as ->.
          apply (pbound_int _ _ _ pzi) in W2 as [-> N1]. apply (pbound_int _ _ _ pzj) in W3 as [-> N2]. rewrite <- (L2 N1 N2). unfold vl. now rewrite py_slice_map.
      + destruct (row_slice_is I B m zi zj) as (x & L1 & L2). exists (TList (TList TInt)), (vm x). split; [reflexivity|]. split; [reflexivity|]. split; [|split; [eexists; reflexivity|]].
        * rewrite <- L1. apply eval_call. cbn [map mapO]. rewrite (aerase_val _ _ _ _ e1), (aerase_val _ _ _ _ ezi), (aerase_val _ _ _ _ ezj). reflexivity.
        * intros w W. destruct (PS w W) as (l' & a1 & a2 & W1 & W2 & W3 & ->). apply p in W1. injection W1 as ->.
          apply (pbound_int _ _ _ pzi) in W2 as [-> N1]. apply (pbound_int _ _ _ pzj) in W3 as [-> N2]. rewrite <- (L2 N1 N2). unfold vm. now rewrite py_slice_map.
    - assert (TT : tidy eb = true /\ tidy (unobj xi) = true /\ (smem (shape_name (o_ty o) "matrix_tail" "tensor3d_tail" "list_tail") indexing = true -> has_type TInt (unobj xi) = true)).
      { cbn [unobj tidy forallb] in TD. rewrite !andb_true_iff in TD. destruct TD as [(_ & T1 & T2 & _) T3]. split; [exact T1|]. split; [exact T2|].
        intros S1. rewrite S1 in T3. cbn in T3. rewrite !andb_true_iff in T3. tauto. }
      destruct TT as (T1 & T2 & T3). specialize (SB T1). specialize (SI T2).
      destruct SB as (T & v & t1 & _ & e1 & y & p). rewrite Tb in t1. injection t1 as <-. rewrite Ub in e1. cbn [unobj].
      destruct (list_ty _ _ _ C y) as [[Q [l ->]]|[Q [m ->]]]; rewrite Q in *; cbn in C; injection C as <-; cbn [shape_name] in *; pose proof (T3 eq_refl) as H1;
        destruct (int_at _ _ _ _ SI H1) as (zi & ezi & pzi).
      + destruct (list_tail_is I B l zi) as (x & L1 & L2). exists (TList TInt), (vl x). split; [reflexivity|]. split; [reflexivity|]. split; [|split; [eexists; reflexivity|]].
        * rewrite <- L1. apply eval_call. cbn [map mapO]. rewrite (aerase_val _ _ _ _ e1), (aerase_val _ _ _ _ ezi). reflexivity.
        * intros w W. destruct (PS w W) as (l' & a1 & a2 & W1 & W2 & W3 & ->). apply p in W1. injection W1 as ->.
          apply (pbound_int _ _ _ pzi) in W2 as [-> N1]. cbn in W3. injection W3 as <-. rewrite <- (L2 N1). unfold vl. now rewrite py_slice_map.
      + destruct (matrix_tail_is I B m zi) as (x & L1 & L2). exists (TList (TList TInt)), (vm x). split; [reflexivity|]. split; [reflexivity|]. split; [|split; [eexists; reflexivity|]].
        * rewrite <- L1. apply eval_call. cbn [map mapO]. rewrite (aerase_val _ _ _ _ e1), (aerase_val _ _ _ _ ezi). reflexivity.
        * intros w W. destruct (PS w W) as (l' & a1 & a2 & W1 & W2 & W3 & ->). apply p in W1. injection W1 as ->.
          apply (pbound_int _ _ _ pzi) in W2 as [-> N1]. cbn in W3. injection W3 as <-. rewrite <- (L2 N1). unfold vm. now rewrite py_slice_map.
    - assert (TT : tidy eb = true /\ tidy (unobj xj) = true /\ (smem (shape_name (o_ty o) "matrix_take" "tensor3d_take" "list_take") indexing = true -> has_type TInt (unobj xj) = true)).
      { cbn [unobj tidy forallb] in TD. rewrite !andb_true_iff in TD. destruct TD as [(_ & T1 & T2 & _) T3]. split; [exact T1|]. split; [exact T2|].
        intros S1. rewrite S1 in T3. cbn in T3. rewrite !andb_true_iff in T3. tauto. }
      destruct TT as (T1 & T2 & T3). specialize (SB T1). specialize (SJ T2).
      destruct SB as (T & v & t1 & _ & e1 & y & p). rewrite Tb in t1. injection t1 as <-. rewrite Ub in e1. cbn [unobj].
      destruct (list_ty _ _ _ C y) as [[Q [l ->]]|[Q [m ->]]]; rewrite Q in *; cbn in C; injection C as <-; cbn [shape_name] in *; pose proof (T3 eq_refl) as H1;
        destruct (int_at _ _ _ _ SJ H1) as (zj & ezj & pzj).
      + destruct (list_take_is I B l zj) as (x & L1 & L2). exists (TList TInt), (vl x). split; [reflexivity|]. split; [reflexivity|]. split; [|split; [eexists; reflexivity|]].
        * rewrite <- L1. apply eval_call. cbn [map mapO]. rewrite (aerase_val _ _ _ _ e1), (aerase_val _ _ _ _ ezj). reflexivity.
        * intros w W. destruct (PS w W) as (l' & a1 & a2 & W1 & W2 & W3 & ->). apply p in W1. injection W1 as ->.
          apply (pbound_int _ _ _ pzj) in W3 as [-> N1]. cbn in W2. injection W2 as <-. rewrite <- (L2 N1). unfold vl. now rewrite py_slice_map.
      + destruct (matrix_take_is I B m zj) as (x & L1 & L2). exists (TList (TList TInt)), (vm x). split; [reflexivity|]. split; [reflexivity|]. split; [|split; [eexists; reflexivity|]].
        * rewrite <- L1. apply eval_call. cbn [map mapO]. rewrite (aerase_val _ _ _ _ e1), (aerase_val _ _ _ _ ezj). reflexivity.
        * intros w W. destruct (PS w W) as (l' & a1 & a2 & W1 & W2 & W3 & ->). apply p in W1. injection W1 as ->.
          apply (pbound_int _ _ _ pzj) in W3 as [-> N1]. cbn in W2. injection W2 as <-. rewrite <- (L2 N1). unfold vm. now rewrite py_slice_map.
  Qed.

  (** functions *)
  Lemma bind_len ps vs r : List.length ps = List.length vs -> exists r', bind ps vs r = Some r'.
  Proof. revert vs. induction ps as [|p ps IH]; intros [|v vs] L; try discriminate; cbn; [eauto|]. destruct (IH vs) as (r' & ->); [cbn in L; congruence|eauto]. Qed.
  Lemma bind_len' ps : forall vs r r', bind ps vs r = Some r' -> List.length ps = List.length vs.
  Proof. induction ps as [|p ps IH]; intros [|v vs] r r' E; try discriminate; cbn in *; [auto|]. destruct (bind ps vs r) eqn:X; [|discriminate]. now rewrite (IH _ _ _ X). Qed.
  Lemma bind_out ps : forall vs r r' x, bind ps vs r = Some r' -> smem x ps = false -> r' x = r x.
  Proof.
    induction ps as [|p ps IH]; intros [|v vs] r r' x E S1; try discriminate; cbn in *; [congruence|].
    destruct (bind ps vs r) eqn:X; [|discriminate]. injection E as <-. apply orb_false_iff in S1 as [N S1]. unfold upd. rewrite String.eqb_sym, N. eauto.
  Qed.
  Lemma bind_in ps : forall a vs r1 r2 r1' r2', Forall2 vty a vs -> List.length ps = List.length a -> bind ps vs r1 = Some r1' -> bind ps vs r2 = Some r2' ->
    forall x t, dget (combine ps a) x = Some t -> exists v, r1' x = Some v /\ r2' x = Some v /\ vty t v.
  Proof.
    induction ps as [|p ps IH]; intros a vs r1 r2 r1' r2' F L E1 E2 x t G; [discriminate|].
    destruct a as [|ta a]; [discriminate|]. inversion F as [|? v ? vs' V F']; subst. cbn in E1, E2, G, L.
    destruct (bind ps vs' r1) eqn:X1; [|discriminate]. destruct (bind ps vs' r2) eqn:X2; [|discriminate]. injection E1 as <-. injection E2 as <-. unfold upd.
    destruct (String.eqb x p) eqn:Q.
    - injection G as <-. rewrite String.eqb_sym, Q. eauto.
    - rewrite String.eqb_sym, Q. eapply IH; eauto.
  Qed.
  Lemma named_is t x e : named t x = Ok e -> e = mkVar x t.
  Proof. destruct t as [| | | | | |[]|]; cbn; congruence. Qed.
  Lemma params_ok ps : forall ts vs, params ps ts = Ok vs -> List.length ps = List.length ts -> map vname vs = ps /\ mapR type_of vs = Ok ts.
  Proof.
    induction ps as [|p ps IH]; intros [|t ts] vs E L; try discriminate.
    - cbn in E. injection E as <-. auto.
    - cbn in E. apply bindR_ok in E as (v & V & E). apply bindR_ok in E as (vs' & V' & E). injection E as <-. apply named_is in V. subst v.
      destruct (IH ts vs' V') as [M1 M2]; [cbn in L; congruence|]. split; cbn; [now rewrite M1|now rewrite M2].
  Qed.
  Lemma F2_len {X Y} (R : X -> Y -> Prop) l l' : Forall2 R l l' -> List.length l = List.length l'.
  Proof. induction 1; cbn; congruence. Qed.
  Lemma apart_out ps x : apart_from gs ps = true -> smem x gs = true -> smem x ps = false.
  Proof.
    intros Q S1. induction ps as [|p ps IH]; [reflexivity|]. cbn in Q. apply andb_true_iff in Q as [Q1 Q2]. change ((String.eqb x p || smem x ps) = false). rewrite (IH Q2), orb_false_r.
    destruct (String.eqb x p) eqn:X; [|reflexivity]. apply String.eqb_eq in X. subst. rewrite S1 in Q1. discriminate.
  Qed.
  Lemma env_bound ps a vals r1 r2 r1' r2' : Forall2 vty a vals -> List.length ps = List.length a -> apart_from gs ps = true ->
    (forall x, smem x gs = true -> r1 x = None /\ r2 x = Some (VFn x)) -> bind ps vals r1 = Some r1' -> bind ps vals r2 = Some r2' ->
    env_ok (combine ps a) r1' r2'.
  Proof.
    intros F L AP G B1 B2. split; [eapply bind_in; eauto|]. intros x S1. rewrite (bind_out _ _ _ _ x B1), (bind_out _ _ _ _ x B2); auto; now apply apart_out.
  Qed.
  Lemma globals_fn x : smem x gs = true -> globals calls x = Some (VFn x).
  Proof. unfold globals. fold gs. now intros ->. Qed.

  Lemma step_lambda ps t body : P body -> P (NLambda ps t body).
  Proof.
    intros Pb arg vars r rI s e s' E I1 I2 EO TD SC. right. cbn [scoped] in SC. cbn -[bindM] in E. apply bindM_ok in E as (o & s1 & E1 & E). apply lift_ok in E1 as [E1 ->]. rewrite E1 in SC.
    destruct o as [[| | | | | | |[|rt a]]|]; try discriminate. rewrite !andb_true_iff in SC. destruct SC as ((((-> & AP) & FO) & L) & SC). apply Nat.eqb_eq in L. split; [reflexivity|].
    apply bindM_ok in E as (vs & s2 & E2 & E). apply lift_ok in E2 as [E2 ->]. apply bindM_ok in E as (b & s3 & E3 & E). apply lift_ok in E as [E ->].
    destruct (params_ok _ _ _ E2 L) as [M1 M2]. unfold mkFn in E. rewrite M2 in E. cbn [bindR] in E. injection E as <-.
    exists rt, a, (unobj b), vs. repeat (split; [auto|]). intros vals rI' F BI.
    cbn [unobj tidy forallb] in TD. rewrite !andb_true_iff in TD. destruct TD as [(_ & T1 & _) T2].
    destruct (bind_len ps vals r) as (rp & BP); [rewrite L; exact (F2_len _ _ _ F)|].
    assert (EO' : env_ok (combine ps a) rp rI').
    { eapply env_bound; eauto. intros x S1. split; [exact (proj1 (proj2 EO x S1))|now apply globals_fn]. }
    destruct (P_val body (combine ps a) rp rI' _ _ _ Pb E3 I1 I2 EO' T1 SC) as (T & v & t1 & t2 & e1 & y & p).
    assert (T = rt) by (destruct (unobj b); [discriminate|]; cbn in T2, t2; apply ty_eqb_eq in T2; congruence). subst T.
    exists v. repeat split; auto. intros rp' w BP'. rewrite BP in BP'. injection BP' as <-. auto.
  Qed.

  Lemma peval_val r n p : peval true D nm r n = Some p -> (exists v, p = PV v) \/ (exists x t, n = NName x t) \/ (exists ps t b, n = NLambda ps t b).
  Proof.
    intros E. destruct n; try (right; left; eauto; fail); try (right; right; eauto; fail); left; cbn [peval] in E;
      repeat match type of E with
             | Some _ = Some _ => injection E as <-
             | None = Some _ => discriminate E
             | option_map PV ?o = Some _ => destruct o; [cbn in E|discriminate E]
             | context [match ?x with _ => _ end] => destruct x
             end; eauto.
  Qed.
  Lemma arg_fo t v : vty t v -> arg_ty I t v.
  Proof. destruct t as [| | | | | | |]; auto. cbn. tauto. Qed.
  Lemma args_fo a vals : Forall2 vty a vals -> Forall2 (arg_ty I) a vals /\ args_rel I a (map PV vals) vals.
  Proof. induction 1 as [|t v a vals V F [IH1 IH2]]; cbn; split; constructor; auto using arg_fo. now constructor. Qed.
  Lemma list_eqb_ty l l' : list_eqb ty_eqb l l' = true -> l = l'.
  Proof. revert l'. induction l as [|x l IH]; intros [|y l'] E; try discriminate; [reflexivity|]. cbn in E. apply andb_true_iff in E as [E1 E2]. apply ty_eqb_eq in E1. rewrite (IH _ E2). congruence. Qed.

  Lemma smem_of_in x l : In x l -> smem x l = true.
  Proof. intros IN. unfold smem. apply existsb_exists. exists x. split; [exact IN|apply String.eqb_refl]. Qed.
  Lemma in_gs f n : In (f, n) calls -> smem n gs = true.
  Proof. intros IN. apply smem_of_in. unfold gs. change n with (snd (f, n)). now apply in_map. Qed.
  (** the function that a name or a lambda becomes *)
  Lemma fn_arg_sound f n names vars r rI s e e' s' t : fn_at n e r -> type_of e = Ok t -> env_ok vars r rI ->
    fn_arg f names (shape_of n) e s = (Ok e', s') -> incl (s_decls s') Ds -> incl (s_calls s') calls ->
    exists v, eval I rI (aerase (unobj e')) = Some v /\ arg_ty I t v /\ forall p, peval true D nm r n = Some p -> arg_rel I t p v.
  Proof.
    intros (rt & a & FA) T EO E I1 I2. destruct n; try contradiction.
    - destruct FA as [-> SG]. cbn in T. injection T as <-. cbn in E. injection E as <- <-. cbn [s_calls s_decls] in *.
      assert (G : smem x gs = true) by (eapply in_gs; apply I2, in_or_app; right; left; reflexivity). destruct (proj2 EO x G) as [N1 N2].
      assert (TF : typed_fn I x rt a).
      { unfold fn_sig in SG. destruct (dget sigs x) as [g|] eqn:DX; [|discriminate]. rewrite !andb_true_iff in SG. destruct SG as [[[S1 S2] _] _]. apply ty_eqb_eq in S1. apply list_eqb_ty in S2. subst rt a.
        intros vs F. exact (ag_total _ _ _ A x g vs DX (proj1 (args_fo _ _ F))). }
      exists (VFn x). split; [exact N2|]. split; [exists x; auto|]. intros p PP. cbn [peval] in PP. rewrite N1 in PP. injection PP as <-. constructor; [exact TF|].
      intros vs v F Dx. unfold fn_sig in SG. destruct (dget sigs x) as [g|] eqn:DX; [|discriminate]. rewrite !andb_true_iff in SG. destruct SG as [[[S1 S2] _] _]. apply ty_eqb_eq in S1. apply list_eqb_ty in S2. subst rt a.
      exact (ag_same _ _ _ A x g _ vs v DX (proj2 (args_fo _ _ F)) Dx).
    - destruct FA as (b & vs & -> & M1 & L & CL). cbn in T. injection T as <-.
      assert (W : exists m, e' = set_name (Node KFnDeclRec (TFn (rt :: a)) (Atom (PStr "<lambda>") :: b :: vs)) m /\ In e' (s_decls s') /\ In (f, m) (s_calls s')).
      { cbn [shape_of] in E. unfold fn_arg in E. destruct (find_lam _ _) as [[m|]|]; [| |discriminate].
        - injection E as <- <-. exists m. cbn [s_decls s_calls]. split; [reflexivity|]. split; apply in_or_app; right; left; reflexivity.
        - destruct names as [|p names]; [discriminate|]. injection E as <- <-. eexists. cbn [s_decls s_calls]. split; [reflexivity|]. split; apply in_or_app; right; left; reflexivity. }
      destruct W as (m & -> & IN1 & IN2). cbn [set_name] in *. apply I1 in IN1. apply I2 in IN2. pose proof (in_gs _ _ IN2) as G.
      pose proof (proj1 (Forall_forall _ _) DEF _ IN1) as DF. cbn [defines] in DF. rewrite M1 in DF.
      exists (VFn m). split; [exact (proj2 (proj2 EO m G))|].
      assert (TF : typed_fn I m rt a).
      { intros vals F. destruct (bind_len params vals (globals calls)) as (rI' & BI); [rewrite L; exact (F2_len _ _ _ F)|].
        destruct (CL vals rI' F BI) as (v & EV & Y & _). exists v. rewrite (DF _ _ BI). auto. }
      split; [exists m; auto|]. intros p PP. cbn [peval] in PP. injection PP as <-. constructor; [exact TF|].
      intros vals v F HV. destruct (bind params vals r) as [rp|] eqn:BP; [|discriminate].
      destruct (bind_len params vals (globals calls)) as (rI' & BI); [exact (bind_len' _ _ _ _ BP)|].
      destruct (CL vals rI' F BI) as (v' & EV & Y & Q). rewrite (DF _ _ BI), EV. f_equal. symmetry. eapply Q; [exact BP|exact HV].
  Qed.

  Lemma lambda_shape ps t b s e s' : parse sigs (NLambda ps t b) s = (Ok e, s') -> exists rt ts b' vs, e = Node KFnDeclRec (TFn (rt :: ts)) (Atom (PStr "<lambda>") :: b' :: vs).
  Proof.
    intros E. cbn -[bindM] in E. apply bindM_ok in E as (o & s1 & _ & E). destruct o as [[| | | | | | |[|rt a]]|]; try discriminate.
    apply bindM_ok in E as (vs & s2 & _ & E). apply bindM_ok in E as (x & s3 & _ & E). apply lift_ok in E as [E _]. unfold mkFn in E. apply bindR_ok in E as (ts & _ & E). injection E as <-. eauto 10.
  Qed.

  Lemma call_args_sound f vars r rI : env_ok vars r rI -> forall l tys names s es s', Forall P l ->
    call_args f (map (fun a => (parse sigs a, shape_of a)) l) tys names s = (Ok es, s') -> incl (s_decls s') Ds -> incl (s_calls s') calls ->
    forallb tidy (map unobj es) = true -> forallb (scoped sigs gs vars true) l = true -> List.length l = List.length tys ->
    exists vs, mapO (eval I rI) (map aerase (map unobj es)) = Some vs /\ Forall2 (arg_ty I) tys vs /\
      forall ps, mapO (peval true D nm r) l = Some ps -> args_rel I tys ps vs.
  Proof.
    intros EO. induction l as [|n l IH]; intros [|t tys] names s es s' F E I1 I2 TD SC L; try discriminate.
    { cbn in E. injection E as <- <-. exists []. repeat split; [constructor|]. intros ps PS. injection PS as <-. constructor. }
    cbn -[bindM ty_eqb fn_arg shape_of] in E. apply bindM_ok in E as (e & s1 & E1 & E). apply bindM_ok in E as (te & s2 & E2 & E). apply lift_ok in E2 as [T ->].
    destruct (ty_eqb te t) eqn:Q; [|discriminate]. apply ty_eqb_eq in Q. subst te. cbn [negb] in E.
    apply bindM_ok in E as (e' & s3 & E3 & E). apply bindM_ok in E as (es' & s4 & E4 & E). apply ret_ok in E as [-> ->].
    inversion F as [|? ? Pn F']; subst. cbn [forallb] in SC. apply andb_true_iff in SC as [Sn SC]. cbn [map forallb] in TD. apply andb_true_iff in TD as [Tn TD].
    assert (G4 : grows s3 s4) by (refine (grows_of _ _ _ _ (mono_call_args f _ _ _ _) E4); apply Forall_forall; intros [m sh] M; apply in_map_iff in M as (k & X & _); injection X as <- <-; apply mono_parse).
    assert (G3 : grows s1 s3) by (refine (grows_of _ _ _ _ _ E3); destruct (is_fn_ty t); auto with mono).
    pose proof (grows_trans _ _ _ G3 G4) as [G G']. destruct G4 as [G4 G4'].
    assert (TE : tidy (unobj e) = true).
    { destruct (is_fn_ty t); [|apply ret_ok in E3 as [-> _]; exact Tn]. destruct n; try (cbn in E3; discriminate E3).
      - cbn in E3. injection E3 as <- _. exact Tn.
      - destruct (lambda_shape _ _ _ _ _ _ E1) as (rt & ts & b' & vs & ->). cbn [shape_of] in E3. unfold fn_arg in E3. destruct (find_lam _ _) as [[m|]|]; [| |discriminate].
        + injection E3 as <- _. exact Tn.
        + destruct names; [discriminate|]. injection E3 as <- _. exact Tn. }
    assert (HD : exists v, eval I rI (aerase (unobj e')) = Some v /\ arg_ty I t v /\ forall p, peval true D nm r n = Some p -> arg_rel I t p v).
    { assert (J1 : incl (s_decls s1) Ds) by (eapply incl_tran; eauto). assert (J2 : incl (s_calls s1) calls) by (eapply incl_tran; eauto).
      destruct (Pn true vars r rI s e s1 E1 J1 J2 EO TE Sn) as [SA|[_ FA]].
      - destruct SA as (T' & v & t1 & t2 & e1 & y & p). rewrite T in t1. injection t1 as <-.
        assert (NF : is_fn_ty t = false) by (destruct t; auto; contradiction). rewrite NF in E3. apply ret_ok in E3 as [-> ->].
        exists v. split; [now apply aerase_val|]. split; [now apply arg_fo|]. intros q PQ.
        destruct (peval_val _ _ _ PQ) as [[w ->]|[(x & tx & ->)|(ps & tx & b & ->)]].
        + assert (w = v) by (apply p; unfold pvalue; rewrite PQ; reflexivity). subst w. now constructor.
        + cbn [scoped] in Sn. cbn -[bindM] in E1. apply bindM_ok in E1 as (o & s5 & X & E1). apply lift_ok in X as [X ->]. rewrite X in Sn. destruct o as [t'|]; [|discriminate].
          apply lift_ok in E1 as [E1 _]. apply named_is in E1. subst e. cbn in T. injection T as ->.
          assert (DX : match dget vars x with Some tx => ty_eqb tx t && fo tx | None => false end = true) by (destruct t; auto; discriminate).
          destruct (dget vars x) as [tv|] eqn:DV; [|discriminate]. destruct (proj1 EO _ _ DV) as (w & R1 & R2 & _). cbn [peval] in PQ. rewrite R1 in PQ. injection PQ as <-.
          assert (w = v) by (apply p; unfold pvalue; cbn [peval]; rewrite R1; reflexivity). subst w. now constructor.
        + destruct (lambda_shape _ _ _ _ _ _ E1) as (rt & ts & b' & vs & ->). cbn in T. injection T as <-. discriminate NF.
      - assert (FT : is_fn_ty t = true) by (destruct FA as (rt & a & FA); destruct n; try contradiction; [destruct FA as [-> _]|destruct FA as (b & vs & -> & _)]; cbn in T; injection T as <-; reflexivity).
        rewrite FT in E3. eapply fn_arg_sound; eauto; eapply incl_tran; eauto. }
    destruct HD as (v & V1 & V2 & V3). destruct (IH tys (tl names) _ _ _ F' E4 I1 I2 TD SC) as (vs & W1 & W2 & W3); [cbn in L; congruence|].
    exists (v :: vs). split; [cbn [map mapO]; rewrite V1, W1; reflexivity|]. split; [now constructor|]. intros ps PS. cbn [mapO] in PS.
    destruct (peval true D nm r n) as [q|]; [|discriminate]. destruct (mapO (peval true D nm r) l) as [qs|]; [|discriminate]. injection PS as <-. constructor; auto.
  Qed.

  Lemma step_call f l k t : Forall P l -> P (NCall f l k t).
  Proof.
    intros F arg vars r rI s e s' E I1 I2 EO TD SC. left. cbn [scoped] in SC. cbn -[bindM call_node len_node] in E. destruct (String.eqb f "len") eqn:FL.
    - apply String.eqb_eq in FL. subst f. destruct l as [|a [|]]; try discriminate. apply bindM_ok in E as (ea & s1 & E1 & E). apply lift_ok in E as [E ->].
      inversion F as [|? ? Pa _]; subst. cbn in SC. rewrite andb_true_r in SC. unfold len_node in E. apply bindR_ok in E as (ta & Ta & E).
      assert (W : exists g, e = Node KCall TInt [Atom (PStr g); unobj ea] /\ (ta = TList TInt -> g = "list_length") /\ (ta = TList (TList TInt) -> g = "matrix_length")).
      { destruct ta; try discriminate; apply bindR_ok in E as (o & E & X); injection X as <-; apply call_src in E; cbn [map o_src] in E; eexists; (split; [exact E|]); split; intros X; try discriminate X; injection X as ->; reflexivity. }
      assert (NI : ta <> TInt /\ ta <> TBool) by (split; intros ->; discriminate). destruct W as (g & -> & G1 & G2).
      cbn -[smem] in TD. rewrite !andb_true_iff in TD. destruct TD as [[T1 _] _].
      assert (SA : sound_at a ea r rI) by (eapply P_val; eauto). destruct SA as (T & v & t1 & t2 & e1 & y & p). rewrite Ta in t1. injection t1 as <-.
      assert (Z : exists z, i_call I g [v] = Some (VInt z) /\ forall l, v = VList l -> py_len l = z).
      { destruct ta as [| |[| |[]| | | | |]| | | | |]; cbn in y; try contradiction; try (destruct NI; congruence); destruct y as [m ->].
        - rewrite (G1 eq_refl). exists (py_len m). split; [exact (list_length_is I B m)|]. intros l X. injection X as <-. apply py_len_map.
        - rewrite (G2 eq_refl). exists (py_len m). split; [exact (matrix_length_is I B m)|]. intros l X. injection X as <-. apply py_len_map. }
      destruct Z as (z & Z1 & Z2). exists TInt, (VInt z). split; [reflexivity|]. split; [reflexivity|]. split; [|split; [eexists; reflexivity|]].
      + rewrite <- Z1. apply eval_call. cbn [map mapO]. rewrite (aerase_val _ _ _ _ e1). reflexivity.
      + intros w W. rewrite pv_len in W. destruct (r "len"); [discriminate|]. destruct (pv r a) as [va|] eqn:PA; [|discriminate]. pose proof (p _ eq_refl) as X. destruct va as [| |lv| |]; try discriminate. rewrite (Z2 lv) in W; congruence.
    - unfold call_node in E. destruct (dget sigs f) as [g|] eqn:DG; [|discriminate]. destruct (Nat.eqb _ _) eqn:L in E; [|discriminate]. apply Nat.eqb_eq in L. rewrite map_length in L. cbn [negb] in E.
      apply bindM_ok in E as (es & s1 & E1 & E). apply bindM_ok in E as (ac & s2 & E2 & E). apply lift_ok in E2 as [_ ->].
      destruct ac as [ac|]; [|discriminate]. destruct (ty_eqb ac (g_ret g)); [|discriminate]. apply lift_ok in E as [E ->]. apply bindR_ok in E as (o & E & X). injection X as <-.
      apply call_src in E. rewrite map_map in E. cbn [o_src] in E. change (fun x : expr => unobj x) with unobj in E. rewrite E in *. clear E.
      assert (TT : forallb tidy (map unobj es) = true) by (cbn [unobj tidy forallb] in TD; apply andb_true_iff in TD as [TD _]; exact TD).
      destruct (call_args_sound f vars r rI EO l (g_args g) (g_names g) s es s1 F E1 I1 I2 TT SC L) as (vs & W1 & W2 & W3).
      destruct (ag_total _ _ _ A f g vs DG W2) as (v & V1 & V2). exists (g_ret g), v. cbn [unobj]. split; [reflexivity|]. split; [reflexivity|]. split; [|split; [exact V2|]].
      + rewrite <- V1. now apply eval_call.
      + intros w W. rewrite pv_call in W by auto. destruct (r f); [discriminate|]. destruct (mapO (peval true D nm r) l) as [ps|] eqn:PS; [|discriminate]. destruct (forallb _ k); [|discriminate].
        pose proof (ag_same _ _ _ A f g ps vs w DG (W3 _ eq_refl) W). congruence.
  Qed.

  Theorem parse_sound : forall n, P n.
  Proof.
    apply pnode_ind'.
    - exact step_name.
    - exact step_int.
    - exact step_op.
    - intros op a _. apply step_unary.
    - intros l t _. apply step_list.
    - exact step_cond.
    - exact step_cmp.
    - exact step_index.
    - intros b s e t Pb Ps Pe _. now apply step_slice.
    - exact step_call.
    - intros arg vars r rI s e s' E. discriminate E.
    - intros arg vars r rI s e s' E _ _ _ _ SC. discriminate SC.
    - exact step_lambda.
    - intros arg vars r rI s e s' E. discriminate E.
  Qed.
End Sound.
