(** Proofs about the Python frontend, part 2: the expression generated for a Python
    expression has its value. *)

From Coq Require Import String List ZArith Bool Lia.
From Verif Require Import Ast Semantics Dict UtilModel UtilProofs ObjModel PyModel PySem PyProofs.
Import ListNotations.
Local Open Scope Z_scope.
Local Open Scope string_scope.
Local Open Scope list_scope.

Section PexprInd.
  Variable P : pexpr -> Prop.
  Hypothesis H1 : forall z, P (EInt z).
  Hypothesis H2 : forall x, P (EName x).
  Hypothesis H3 : forall ops es, Forall P es -> P (ECmp ops es).
  Hypothesis H4 : forall op l r, P l -> P r -> P (EOp op l r).
  Hypothesis H5 : forall es, Forall P es -> P (ETuple es).
  Hypothesis H6 : forall b i, P b -> P i -> P (EIndex b i).
  Hypothesis H7 : forall es, Forall P es -> P (EList es).
  Hypothesis H8 : forall op e, P e -> P (EUnary op e).
  Hypothesis H9 : forall f es t, Forall P es -> P (ECallFn f es t).
  Hypothesis H10 : forall c m es, P c -> Forall P es -> P (ECallMethod c m es).
  Fixpoint pexpr_ind' (e : pexpr) : P e :=
    let go := fix go (l : list pexpr) : Forall P l :=
      match l with [] => Forall_nil P | x :: r => Forall_cons x (pexpr_ind' x) (go r) end in
    match e with
    | EInt z => H1 z
    | EName x => H2 x
    | ECmp ops es => H3 ops es (go es)
    | EOp op l r => H4 op l r (pexpr_ind' l) (pexpr_ind' r)
    | ETuple es => H5 es (go es)
    | EIndex b i => H6 b i (pexpr_ind' b) (pexpr_ind' i)
    | EList es => H7 es (go es)
    | EUnary op e => H8 op e (pexpr_ind' e)
    | ECallFn f es t => H9 f es t (go es)
    | ECallMethod c m es => H10 c m es (pexpr_ind' c) (go es)
    end.
End PexprInd.

(** *** What the object layer builds *)

Lemma bind_ok A B (m : res A) (f : A -> res B) b : bindR m f = Ok b -> exists a, m = Ok a /\ f a = Ok b.
Proof. destruct m; cbn [bindR]; [eauto | discriminate]. Qed.

Ltac ok H x E := apply bind_ok in H as (x & E & H).

Lemma create_ok t e o : create_object t e = Ok o -> o = {| o_ty := t; o_src := e |}.
Proof.
  unfold create_object. destruct t; try congruence.
  - destruct (type_of e); cbn [bindR]; try discriminate. destruct (ty_eqb _ _); congruence.
  - destruct (type_of e); cbn [bindR]; try discriminate. destruct (ty_eqb _ _); congruence.
  - destruct e as [|[] ? ?]; congruence.
Qed.

Lemma int_op_ok k a b o : int_op k a b = Ok o -> o = {| o_ty := TInt; o_src := Node k TInt [o_src a; o_src b] |}.
Proof.
  unfold int_op. intros H. ok H e E. apply create_ok in H. subst o. f_equal.
  assert (E2 : mkArithN k [o_src a; o_src b] = Ok e \/ mkArith2 k [o_src a; o_src b] = Ok e) by (destruct k; auto).
  clear E. destruct E2 as [E|E]; cbn [mkArithN mkArith2] in E; ok E t Et; ok E u Eu; congruence.
Qed.

Lemma int_cmp_ok k a b o : int_cmp k a b = Ok o -> o = {| o_ty := TBool; o_src := Node k TBool [o_src a; o_src b] |}.
Proof.
  unfold int_cmp, mkCmp. intros H. ok H e E. apply create_ok in H. subst o. f_equal.
  ok E ta Ea. ok E tb Eb. destruct (ty_eqb ta tb); congruence.
Qed.

Lemma int_eq_ok a b o : int_eq a b = Ok o -> o = {| o_ty := TBool; o_src := Node KEq TBool [o_src a; o_src b] |}.
Proof.
  unfold int_eq, mkEq. intros H. ok H e E. apply create_ok in H. subst o. congruence.
Qed.

Lemma call_ok f t args o : call f t args = Ok o ->
  o = {| o_ty := t; o_src := Node KCall t (Atom (PStr f) :: map o_src args) |}.
Proof. unfold call, mkCall. cbn [bindR]. apply create_ok. Qed.

Lemma ty_eqb_eq a : forall b, ty_eqb a b = true -> a = b.
Proof.
  induction a using ty_ind'; intros [] E; simpl in E; try discriminate; auto; try (f_equal; now apply IHa).
  - f_equal. revert ts0 E. induction H as [|x xs Hx _ IH]; intros [|y ys] E; simpl in E; try discriminate; auto.
    apply andb_true_iff in E as [E1 E2]. f_equal; auto.
  - f_equal. revert ts0 E. induction H as [|x xs Hx _ IH]; intros [|y ys] E; simpl in E; try discriminate; auto.
    apply andb_true_iff in E as [E1 E2]. f_equal; auto.
Qed.

Section Expr.
Variables (I : interp) (U : string -> list val -> option val) (G : dict ty) (uninterp : list string).
Hypothesis LIB : library I.
Hypothesis UNI : forall f vs, smem f uninterp = true -> i_call I f vs = U f vs /\ exists z, U f vs = Some (VInt z).

(** every variable of the symbolic state has a value of its type *)
Definition Static (S : list string) (r : env) (d : dict obj) : Prop :=
  NoDup (dkeys d) /\
  forall x o, dget d x = Some o ->
    dget G x = Some (o_ty o) /\ good S (o_src o) /\
    (forall u y, o_ty o = TList u -> var_name o = Ok y -> y = x) /\
    exists v, eval I r (o_src o) = Some v /\ of_type (o_ty o) v = true.

(** where the Python variable has a value, it is that value *)
Definition Link (r : env) (st : store) (d : dict obj) : Prop :=
  forall x o w, dget d x = Some o -> st x = Some w -> eval I r (o_src o) = Some w.

Definition sound (S : list string) (r : env) (d : dict obj) (e : pexpr) (t : ty) (o : obj) : Prop :=
  o_ty o = t /\ good S (o_src o) /\
  exists v, eval I r (o_src o) = Some v /\ of_type t v = true /\
    forall st w, Link r st d -> pyeval U true st e = Some w -> w = v.

Lemma of_int v : of_type TInt v = true -> exists z, v = VInt z.
Proof. destruct v; try discriminate. eauto. Qed.
Lemma of_bool v : of_type TBool v = true -> exists b, v = VBool b.
Proof. destruct v; try discriminate. eauto. Qed.
Lemma of_list v : of_type (TList TInt) v = true -> exists l, v = VList l.
Proof. destruct v; try discriminate. eauto. Qed.

Fixpoint of_types (ts : list ty) (l : list val) : bool :=
  match ts, l with
  | [], [] => true
  | t :: ts', v :: l' => of_type t v && of_types ts' l'
  | _, _ => false
  end.
Lemma of_tuple ts v : of_type (TTuple ts) v = true -> exists l, v = VTuple l /\ of_types ts l = true.
Proof. destruct v; try discriminate. intros H. exists l. split; auto. Qed.

Lemma of_types_nth ts : forall l n t, of_types ts l = true -> nth_error ts n = Some t ->
  exists v, nth_error l n = Some v /\ of_type t v = true.
Proof.
  induction ts as [|u ts IH]; intros [|v l] [|n] t H E; simpl in *; try discriminate.
  - apply andb_true_iff in H as [A B]. injection E as <-. eauto.
  - apply andb_true_iff in H as [A B]. eapply IH; eauto.
Qed.

Lemma good2 S k t a b : k <> KVar -> k <> KNonTerm -> k <> KLit -> good S a -> good S b -> good S (Node k t [a; b]).
Proof.
  intros N1 N2 N3 [Pa Va] [Pb Vb]. split.
  - destruct k; simpl; rewrite ?Pa, ?Pb; auto; congruence.
  - assert (fv (Node k t [a; b]) = fv a ++ fv b ++ []) as -> by (destruct k; try congruence; reflexivity).
    rewrite app_nil_r. now apply incl_app.
Qed.

Lemma good_call S f t args : Forall (good S) args -> good S (Node KCall t (Atom (PStr f) :: args)).
Proof.
  intros F. split.
  - simpl. apply forallb_forall. intros x IN. rewrite Forall_forall in F. apply (F x IN).
  - simpl. intros y IN. apply in_flat_map in IN as (x & INx & INy). rewrite Forall_forall in F. now apply (F x INx).
Qed.

(** the items of a list of expressions *)
Lemma items_sound S r s es : (Forall (fun e => forall t o s' , vexpr uninterp e s = Ok (o, s') -> ety G uninterp e = Some t ->
    s' = s /\ sound S r (vars s) e t o) es) ->
  forall ts os s', mapS (vexpr uninterp) es s = Ok (os, s') -> mapO (ety G uninterp) es = Some ts ->
  s' = s /\ map o_ty os = ts /\ Forall (good S) (map o_src os) /\
  exists vs, mapO (eval I r) (map o_src os) = Some vs /\ of_types ts vs = true /\
    forall st ws, Link r st (vars s) -> mapO (pyeval U true st) es = Some ws -> ws = vs.
Proof.
  induction 1 as [|e es He Hes IH]; intros ts os s' V E.
  - cbn [mapS] in V. injection V as <- <-. cbn [mapO] in E. injection E as <-.
    split; auto. split; auto. split; [constructor|]. exists []. split; auto. split; auto. intros st ws _ H. cbn in H. congruence.
  - cbn [mapS] in V. ok V p Ep. ok V q Eqq. injection V as <- <-. destruct p as [o s1], q as [os1 s2]. cbn [fst snd] in *.
    cbn [mapO] in E. destruct (ety G uninterp e) as [t|] eqn:Et; [|discriminate].
    destruct (mapO (ety G uninterp) es) as [ts'|] eqn:Ets; [|discriminate]. injection E as <-.
    destruct (He t o s1 Ep eq_refl) as (-> & T & Go & v & Ev & Tv & L).
    destruct (IH ts' os1 s2 Eqq eq_refl) as (-> & Ts & Gs & vs & Evs & Tvs & Ls).
    split; auto. split; [cbn; congruence|]. split; [constructor; auto|].
    exists (v :: vs). cbn [map mapO]. rewrite Ev, Evs. split; auto. split; [cbn; now rewrite Tv, Tvs|].
    intros st ws LK H. cbn [mapO] in H. destruct (pyeval U true st e) as [w|] eqn:Pe; [|discriminate].
    destruct (mapO (pyeval U true st) es) as [ws'|] eqn:Pes; [|discriminate]. injection H as <-.
    f_equal; eauto.
Qed.

Lemma smem_in x l : smem x l = true -> In x l.
Proof. unfold smem. intros H. apply existsb_exists in H as (y & IN & E). apply String.eqb_eq in E. now subst. Qed.

Theorem vexpr_sound S r e : forall s, Static S r (vars s) -> forall t o s',
  vexpr uninterp e s = Ok (o, s') -> ety G uninterp e = Some t ->
  s' = s /\ sound S r (vars s) e t o.
Proof.
  induction e as [z|x|ops es IH|op l r0 IHl IHr|es IH|b i IHb IHi|es IH|op e IHe|f es mt IH|c m es IHc IH] using pexpr_ind';
    intros s ST t o s' V E; cbn [ety] in E; cbn [vexpr] in V.
  - injection V as <- <-. injection E as <-. split; auto. split; auto. split.
    + split; [reflexivity | intros y []].
    + exists (VInt z). repeat split; auto. intros st w _ H. cbn in H. congruence.
  - ok V o1 R. injection V as <- <-. unfold read in R. destruct (dget (vars s) x) as [o2|] eqn:D; [|discriminate].
    injection R as <-. destruct (proj2 ST x o2 D) as (T & GD & _ & v & Ev & Tv). split; auto. split; [congruence|]. split; auto.
    assert (t = o_ty o2) by congruence. subst t. exists v. repeat split; auto.
    intros st w LK H. cbn in H. specialize (LK x o2 w D H). congruence.
  - (* comparison *)
    destruct ops as [|op [|]]; try discriminate. destruct es as [|a [|b [|]]]; try discriminate.
    destruct (ety G uninterp a) as [[]|] eqn:Ta; try discriminate.
    destruct (ety G uninterp b) as [[]|] eqn:Tb; try discriminate.
    destruct (smem op ["<"; "<="; ">"; ">="; "=="]) eqn:OP; [|discriminate]. injection E as <-.
    inversion IH as [|? ? IHa IH1]; subst. inversion IH1 as [|? ? IHb IH2]; subst. clear IH IH1 IH2.
    ok V p Ep. ok V o1 Eo. injection V as <- <-. cbn [mapS] in Ep.
    ok Ep pa Epa. ok Ep pb Epb. injection Ep as <-. ok Epb pb' Epb'. injection Epb as <-.
    destruct pa as [oa sa], pb' as [ob sb]. cbn [fst snd] in *.
    destruct (IHa s ST TInt oa sa Epa Ta) as (-> & Toa & Ga & va & Eva & Tva & La).
    destruct (IHb s ST TInt ob sb Epb' Tb) as (-> & Tob & Gb & vb & Evb & Tvb & Lb).
    apply of_int in Tva as (za & ->). apply of_int in Tvb as (zb & ->).
    cbn [comparison] in Eo. ok Eo e1 Ee1. cbn [compare_chain] in Eo. injection Eo as ->.
    split; auto. unfold process_comparison in Ee1. rewrite Toa, Tob in Ee1. cbn [ty_eqb negb orb] in Ee1.
    assert (K : exists k b, o1 = {| o_ty := TBool; o_src := Node k TBool [o_src oa; o_src ob] |} /\
              k <> KVar /\ k <> KNonTerm /\ k <> KLit /\
              eval I r (Node k TBool [o_src oa; o_src ob]) = Some (VBool b) /\
              py_cmp op (VInt za) (VInt zb) = Some b).
    { apply smem_in in OP. destruct OP as [<-|[<-|[<-|[<-|[<-|[]]]]]]; cbn in Ee1;
        (apply int_cmp_ok in Ee1 || apply int_eq_ok in Ee1); subst o1;
        match goal with |- exists k b, {| o_ty := TBool; o_src := Node ?kk _ _ |} = _ /\ _ => exists kk end;
        eexists; (split; [reflexivity|]); repeat (split; [congruence|]); cbn [eval mapO]; rewrite Eva, Evb; cbn; split; reflexivity. }
    destruct K as (k & bb & -> & N1 & N2 & N3 & EV & PC).
    split; auto. split; [now apply good2|]. exists (VBool bb). split; auto. split; auto.
    intros st w LK H. cbn [pyeval] in H.
    destruct (pyeval U true st a) as [wa|] eqn:Pa; [|discriminate].
    destruct (pyeval U true st b) as [wb|] eqn:Pb; [|discriminate].
    apply (La st wa LK) in Pa. apply (Lb st wb LK) in Pb. subst wa wb. rewrite PC in H.
    destruct bb; congruence.
  - (* binary operators *)
    ok V p Ep. ok V q Eqq. ok V o1 Eo. injection V as <- <-. destruct p as [ol sl], q as [or sr]. cbn [fst snd] in *.
    destruct (ety G uninterp l) as [tl|] eqn:Tl; [|discriminate].
    destruct (ety G uninterp r0) as [tr|] eqn:Tr; [|destruct tl; discriminate].
    destruct (IHl s ST tl ol sl Ep eq_refl) as (-> & Tol & Gl & vl & Evl & Tvl & Ll).
    destruct (IHr s ST tr or sr Eqq eq_refl) as (-> & Tor & Gr & vr & Evr & Tvr & Lr).
    split; auto. unfold op_expr in Eo. rewrite Tol, Tor in Eo.
    destruct tl, tr; try discriminate.
    + destruct (smem op ["+"; "-"; "*"; "//"]) eqn:OP; [|discriminate]. injection E as <-.
      apply of_int in Tvl as (zl & ->). apply of_int in Tvr as (zr & ->).
      cbn [ty_eqb andb] in Eo.
      assert (K : exists k z, o1 = {| o_ty := TInt; o_src := Node k TInt [o_src ol; o_src or] |} /\
                k <> KVar /\ k <> KNonTerm /\ k <> KLit /\
                eval I r (Node k TInt [o_src ol; o_src or]) = Some (VInt z) /\
                op <> "and" /\ op <> "or" /\
                forall w, py_arith true op (VInt zl) (VInt zr) = Some w -> w = VInt z).
      { apply smem_in in OP. destruct OP as [<-|[<-|[<-|[<-|[]]]]]; cbn in Eo; apply int_op_ok in Eo; subst o1.
        - exists KAdd, (zl + zr). repeat (split; [congruence || reflexivity|]). cbn [eval mapO]. rewrite Evl, Evr.
          split; [reflexivity|]. repeat (split; [congruence|]). cbn. congruence.
        - exists KSub, (zl - zr). repeat (split; [congruence || reflexivity|]). cbn [eval mapO]. rewrite Evl, Evr.
          split; [reflexivity|]. repeat (split; [congruence|]). cbn. congruence.
        - exists KMul, (zl * zr). repeat (split; [congruence || reflexivity|]). cbn [eval mapO]. rewrite Evl, Evr.
          split; [reflexivity|]. repeat (split; [congruence|]). cbn. congruence.
        - destruct (lib_div_total I LIB zl zr) as (z & Ez). exists KDiv, z.
          repeat (split; [congruence || reflexivity|]). cbn [eval mapO]. rewrite Evl, Evr.
          split; [cbn; now rewrite Ez|]. repeat (split; [congruence|]). intros w. cbn.
          destruct (zr =? 0)%Z eqn:Z0; [discriminate|]. destruct (zr <? 0)%Z eqn:Z1; [discriminate|]. cbn.
          intros H. injection H as <-. rewrite (lib_div I LIB) in Ez by lia. congruence. }
      destruct K as (k & z & -> & N1 & N2 & N3 & EV & NA & NO & PA).
      split; auto. split; [now apply good2|]. exists (VInt z). split; auto. split; auto.
      intros st w LK H. cbn [pyeval] in H. apply String.eqb_neq in NA, NO. rewrite NA, NO in H.
      destruct (pyeval U true st l) as [wl|] eqn:Pl; [|discriminate].
      destruct (pyeval U true st r0) as [wr|] eqn:Pr; [|discriminate].
      apply (Ll st wl LK) in Pl. apply (Lr st wr LK) in Pr. subst wl wr. auto.
    + destruct (smem op ["and"; "or"]) eqn:OP; [|discriminate]. injection E as <-.
      apply of_bool in Tvl as (bl & ->). apply of_bool in Tvr as (br & ->).
      cbn [ty_eqb andb] in Eo.
      assert (M : mapO (eval I r) [o_src ol; o_src or] = Some (map VBool [bl; br])).
      { cbn [mapO]. now rewrite Evl, Evr. }
      assert (PL : Forall (fun e => plain e = true) [o_src ol; o_src or]).
      { repeat constructor; [apply Gl | apply Gr]. }
      assert (GG : Forall (good S) [o_src ol; o_src or]) by (repeat constructor; apply Gl || apply Gr).
      apply smem_in in OP. destruct OP as [<-|[<-|[]]]; cbn in Eo; ok Eo ee Ee; injection Eo as <-; unfold sound; cbn [o_ty o_src].
      * split; auto. split; [eapply (objects_good KAnd); eauto; left; auto|].
        exists (VBool (bl && br)). split.
        { pose proof (objects_value I r KAnd _ _ _ (or_introl eq_refl) Ee PL M) as X. rewrite X. cbn. now rewrite andb_true_r. }
        split; auto. intros st w LK H. cbn in H.
        destruct (pyeval U true st l) as [wl|] eqn:Pl; [|discriminate].
        apply (Ll st wl LK) in Pl. subst wl. destruct bl; cbn in H; [|injection H as <-; reflexivity].
        destruct (pyeval U true st r0) as [wr|] eqn:Pr; [|discriminate].
        apply (Lr st wr LK) in Pr. subst wr. injection H as <-. reflexivity.
      * split; auto. split; [eapply (objects_good KOr); eauto; right; left; auto|].
        exists (VBool (bl || br)). split.
        { pose proof (objects_value I r KOr _ _ _ (or_intror (or_introl eq_refl)) Ee PL M) as X. rewrite X. cbn. now rewrite orb_false_r. }
        split; auto. intros st w LK H. cbn in H.
        destruct (pyeval U true st l) as [wl|] eqn:Pl; [|discriminate].
        apply (Ll st wl LK) in Pl. subst wl. destruct bl; cbn in H; [injection H as <-; reflexivity|].
        destruct (pyeval U true st r0) as [wr|] eqn:Pr; [|discriminate].
        apply (Lr st wr LK) in Pr. subst wr. injection H as <-. reflexivity.
  - (* tuples *)
    ok V p Ep. ok V o1 Eo. injection V as <- <-. destruct p as [os s1]. cbn [fst snd] in *.
    destruct (mapO (ety G uninterp) es) as [ts|] eqn:Ets; [|discriminate].
    destruct (forallb prim ts) eqn:PR; [|discriminate]. injection E as <-.
    destruct (items_sound S r s es) with (ts := ts) (os := os) (s' := s1) as (-> & TS & GS & vs & Evs & Tvs & Ls); auto.
    { eapply Forall_impl; [|exact IH]. cbn beta. intros e He t o s' V E. eapply He; eauto. }
    split; auto. unfold make_tuple, mkTupleExpr in Eo. ok Eo e1 Ee1. ok Ee1 ts1 Ets1. injection Ee1 as <-. injection Eo as <-.
    split; [cbn; congruence|]. split.
    { cbn [o_src]. split.
      - simpl. apply forallb_forall. intros x IN. rewrite Forall_forall in GS. apply (GS x IN).
      - simpl. intros y IN. apply in_flat_map in IN as (x & INx & INy). rewrite Forall_forall in GS. now apply (GS x INx). }
    exists (VTuple vs). cbn [o_src eval]. rewrite Evs. split; auto. split; [exact Tvs|].
    intros st w LK H. cbn [pyeval] in H. destruct (mapO (pyeval U true st) es) as [ws|] eqn:Pes; [|discriminate].
    injection H as <-. f_equal. eauto.
  - (* indexing *)
    ok V p Ep. ok V q Eqq. ok V o1 Eo. injection V as <- <-. destruct p as [oi si], q as [ob sb]. cbn [fst snd] in *.
    destruct (ety G uninterp b) as [tb|] eqn:Tb; [|discriminate].
    destruct tb as [| |te| | | |ts|]; try discriminate.
    + destruct te; try discriminate. destruct (ety G uninterp i) as [[]|] eqn:Ti; try discriminate. injection E as <-.
      destruct (IHi s ST TInt oi si Ep eq_refl) as (-> & Toi & Gi & vi & Evi & Tvi & Li).
      destruct (IHb s ST (TList TInt) ob sb Eqq eq_refl) as (-> & Tob & Gb & vb & Evb & Tvb & Lb).
      split; auto. unfold index_expr in Eo. rewrite Toi, Tob in Eo. cbn [ty_eqb negb] in Eo.
      unfold getitem in Eo. rewrite Tob in Eo. cbn in Eo. injection Eo as <-.
      split; auto. split; [apply good_call; repeat constructor; apply Gb || apply Gi|].
      pose proof Tvb as Tvb'. apply of_list in Tvb' as (lb & ->). apply of_int in Tvi as (zi & ->).
      destruct (lib_get_total I LIB lb zi Tvb) as (z & Ez).
      exists (VInt z). split; [cbn [o_src map eval mapO]; now rewrite Evb, Evi|]. split; auto.
      intros st w LK H. cbn [pyeval] in H.
      destruct (pyeval U true st b) as [wb|] eqn:Pb; [|discriminate].
      apply (Lb st wb LK) in Pb. subst wb.
      destruct (pyeval U true st i) as [wi|] eqn:Pi; [|discriminate].
      apply (Li st wi LK) in Pi. subst wi. unfold py_index in H.
      destruct (zi <? 0)%Z eqn:NEG; [discriminate|].
      rewrite (lib_get I LIB lb zi w) in Ez; [congruence | lia | exact H].
    + destruct i as [zi| | | | | | | | |]; try (destruct (ety G uninterp _); discriminate).
      cbn [vexpr] in Ep. injection Ep as <- <-. cbn [ety] in E.
      destruct (zi <? 0)%Z eqn:NEG; [discriminate|].
      destruct (nth_error ts (Z.to_nat zi)) as [t0|] eqn:NT; [|discriminate].
      destruct (prim t0) eqn:PR; [|discriminate]. injection E as <-.
      destruct (IHb s ST (TTuple ts) ob sb Eqq eq_refl) as (-> & Tob & Gb & vb & Evb & Tvb & Lb).
      split; auto. unfold index_expr in Eo. rewrite Tob in Eo. cbn [int_lit o_ty ty_eqb negb] in Eo.
      unfold tuple_getitem in Eo. cbn [int_lit o_src IntLit mkLit] in Eo. rewrite NEG in Eo. rewrite NEG in Eo.
      rewrite NT in Eo. destruct (is_primitive_type t0); [|discriminate]. apply call_ok in Eo. subst o1.
      split; auto. split; [apply good_call; repeat constructor; try apply Gb; intros y []|].
      apply of_tuple in Tvb as (lb & -> & Tl).
      destruct (of_types_nth _ _ _ _ Tl NT) as (v & NV & Tv).
      exists v. split.
      { cbn [o_src map eval mapO int_lit IntLit mkLit lit_val]. rewrite Evb. apply (lib_tuple I LIB); auto. lia. }
      split; auto. intros st w LK H. cbn [pyeval] in H.
      destruct (pyeval U true st b) as [wb|] eqn:Pb; [|discriminate].
      apply (Lb st wb LK) in Pb. subst wb. unfold py_index in H. rewrite NEG in H. congruence.
  - (* list displays *)
    destruct es; [|discriminate]. injection E as <-. ok V o1 Eo. injection V as <- <-.
    unfold list_empty in Eo. ok Eo e1 Ee1. apply create_ok in Eo. subst o1. injection Ee1 as <-.
    split; auto. split; auto. split; [apply good_call; constructor|].
    exists (VList []). split; [cbn [o_src eval mapO is_primitive_type]; apply (lib_empty I LIB)|]. split; auto.
    intros st w LK H. cbn in H. congruence.
  - (* unary minus *)
    destruct (ety G uninterp e) as [[]|] eqn:Te; try discriminate.
    destruct (op =? "-") eqn:OP; [|discriminate]. injection E as <-.
    ok V p Ep. destruct p as [oe se]. cbn [fst snd] in *.
    destruct (IHe s ST TInt oe se Ep eq_refl) as (-> & Toe & Ge & ve & Eve & Tve & Le).
    destruct (ty_eqb (o_ty oe) TInt); [|discriminate]. ok V o1 Eo. injection V as <- <-. apply int_op_ok in Eo. subst o1.
    split; auto. split; auto. apply of_int in Tve as (ze & ->). split.
    { apply good2; try congruence; auto. split; [reflexivity | intros y []]. }
    exists (VInt (0 - ze)). split; [cbn [o_src int_lit IntLit mkLit eval mapO lit_val]; now rewrite Eve|]. split; auto.
    intros st w LK H. cbn [pyeval] in H. rewrite OP in H.
    destruct (pyeval U true st e) as [we|] eqn:Pe; [|discriminate].
    apply (Le st we LK) in Pe. subst we. injection H as <-. reflexivity.
  - (* function calls *)
    destruct (mapO (ety G uninterp) es) as [ts|] eqn:Ets; [|discriminate].
    destruct mt; try discriminate.
    destruct (f =? "len") eqn:LEN.
    + destruct ts as [|[| |[]| | | | |] []]; try discriminate. injection E as <-.
      ok V p Ep. ok V a Ea. destruct p as [os s1]. cbn [fst snd] in *.
      destruct (items_sound S r s es) with (ts := [TList TInt]) (os := os) (s' := s1) as (-> & TS & GS & vs & Evs & Tvs & Ls); auto.
      { eapply Forall_impl; [|exact IH]. cbn beta. intros e He t9 o9 s9 V9 E9. eapply He; eauto. }
      destruct os as [|a1 [|]]; try discriminate. cbn [one] in Ea. injection Ea as ->. cbn [map] in *.
      injection TS as Ta. rewrite Ta in V. cbn [is_list_type] in V. ok V o1 Eo. injection V as <- <-.
      unfold o_len in Eo. rewrite Ta in Eo. apply call_ok in Eo. subst o1.
      split; auto. split; auto. split; [now apply good_call|].
      destruct vs as [|v [|]]; try discriminate.
      2:{ cbn [of_types] in Tvs. rewrite andb_false_r in Tvs. discriminate. }
      cbn [of_types] in Tvs. rewrite andb_true_r in Tvs. pose proof Tvs as Tv. apply of_list in Tv as (lv & ->).
      exists (VInt (Z.of_nat (length lv))). split; [cbn [o_src eval]; cbn [map]; rewrite Evs; apply (lib_length I LIB)|].
      split; auto. intros st w LK H. cbn [pyeval] in H.
      destruct (mapO (pyeval U true st) es) as [ws|] eqn:Pes; [|discriminate]. rewrite LEN in H.
      rewrite (Ls st ws LK Pes) in H. congruence.
    + destruct (smem f uninterp) eqn:UF; [|discriminate]. injection E as <-.
      ok V p Ep. ok V t' Et'. cbn in Et'. injection Et' as <-. destruct p as [os s1]. cbn [fst snd] in *.
      ok V o1 Eo. injection V as <- <-. apply call_ok in Eo. subst o1.
      destruct (items_sound S r s es) with (ts := ts) (os := os) (s' := s1) as (-> & TS & GS & vs & Evs & Tvs & Ls); auto.
      { eapply Forall_impl; [|exact IH]. cbn beta. intros e He t9 o9 s9 V9 E9. eapply He; eauto. }
      split; auto. split; auto. split; [now apply good_call|].
      destruct (UNI f vs UF) as (EQ & z & Ez). exists (VInt z).
      split; [cbn [o_src eval]; rewrite Evs; congruence|]. split; auto.
      intros st w LK H. cbn [pyeval] in H.
      destruct (mapO (pyeval U true st) es) as [ws|] eqn:Pes; [|discriminate]. rewrite LEN in H.
      rewrite (Ls st ws LK Pes) in H. congruence.
  - discriminate.
Qed.
End Expr.
