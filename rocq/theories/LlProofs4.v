(** Proofs about the LLVM frontend, part 4: what is known about the state of each
    block. *)

From Coq Require Import String List ZArith Bool Lia.
From Verif Require Import Ast Semantics Dict IrProofs IrProofs3 ObjModel UtilModel UtilProofs PyModel PySem PyProofs PyProofs2 PyProofs3 PyProofs4 LlModel LlSem LlProofs LlProofs2 LlProofs3.
Import ListNotations.
Local Open Scope string_scope.
Local Open Scope list_scope.

Lemma insert_obj_in o l l' : insert_obj o l = Ok l' -> forall x, In x l' <-> x = o \/ In x l.
Proof.
  revert l'. induction l as [|y l IH]; intros l' H; cbn [insert_obj] in H.
  - ok H a Ea. injection H as <-. intros x. cbn. intuition.
  - ok H a Ea. ok H b Eb. destruct (String.compare a b).
    + injection H as <-. intros x. cbn. intuition.
    + injection H as <-. intros x. cbn. intuition.
    + ok H r Er. injection H as <-. intros x. cbn. rewrite (IH _ Er). intuition.
Qed.
Lemma sort_objs_in l l' : sort_objs l = Ok l' -> forall x, In x l' <-> In x l.
Proof.
  revert l'. induction l as [|y l IH]; intros l' H; cbn [sort_objs] in H.
  - injection H as <-. tauto.
  - ok H r Er. intros x. rewrite (insert_obj_in _ _ _ H), (IH _ Er). cbn. intuition.
Qed.

Lemma sget_none_state s n : prims s = [] -> ptrs s = [] -> sget s n = None.
Proof. intros A B. unfold sget. destruct n as [[] x]; cbn; rewrite ?A, ?B; reflexivity. Qed.

Section Body.
Variables (I : interp) (U : string -> list val -> option val) (an : annot) (uninterp : list string).
Hypothesis LIB : llibrary I.
Hypothesis UNI : forall f vs, smem f (uninterp ++ maths) = true -> i_call I f vs = U f vs /\ exists z, U f vs = Some (VInt z).
Variable sn : option string.
Hypothesis SRT : forall x, sn = Some x -> reg_ty an (true, x) = Some (TList TInt).
Hypothesis DISJ : forallb (fun x => negb (dmem (a_ptr an) x)) (dkeys (a_prim an)) = true.
Variables (fn : string) (fargs : list obj) (sret : option obj).
Notation VI := (visit_instr fn fargs sret uninterp).
Notation okst := (okst I an sn).
Notation Lk := (Lk I).
Notation typesok := (typesok an).

(** ** The variables in a new value *)

Definition rfv (s : lstate) (l : list name) : list string :=
  flat_map (fun n => match sget s n with Some o => fv (o_src o) | None => [] end) l.
Lemma rfv_in s l n o : In n l -> sget s n = Some o -> incl (fv (o_src o)) (rfv s l).
Proof. intros IN E x H. unfold rfv. apply in_flat_map. exists n. split; auto. now rewrite E. Qed.
Lemma rfv_app s l l' : rfv s (l ++ l') = rfv s l ++ rfv s l'.
Proof. apply flat_map_app. Qed.
Lemma operand_fv s a o : read_or_load_operand s a = Ok o -> incl (fv (o_src o)) (rfv s (op_names a)).
Proof.
  intros H. destruct a as [x p| | |].
  - apply (rfv_in s _ (p, x)); [now left|]. unfold sget. destruct p; cbn in H |- *; [destruct (dget (ptrs s) x) | destruct (dget (prims s) x)]; congruence.
  - cbn in H. injection H as <-. intros x [].
  - cbn in H. injection H as <-. intros x [].
  - cbn in H. injection H as <-. intros x [].
Qed.
Lemma operands_fv s args : forall os, mapR (read_or_load_operand s) args = Ok os -> incl (flat_map (fun o => fv (o_src o)) os) (rfv s (flat_map op_names args)).
Proof.
  induction args as [|a args IH]; cbn [mapR flat_map]; intros os H; [injection H as <-; intros x []|]. ok H o E. ok H os' E'. injection H as <-.
  cbn [flat_map]. rewrite rfv_app. apply incl_app; [apply incl_appl, operand_fv, E | apply incl_appr, IH, E'].
Qed.
Lemma list_empty_fv o : list_empty TInt = Ok o -> fv (o_src o) = [].
Proof. intros H. vm_compute in H. injection H as <-. reflexivity. Qed.
Lemma call_fv f t os o : call f t os = Ok o -> fv (o_src o) = flat_map (fun o => fv (o_src o)) os.
Proof. intros H. apply call_ok in H. subst o. cbn [o_src fv]. change (flat_map fv (map o_src os) = flat_map (fun o => fv (o_src o)) os). now rewrite flat_map_concat_map, map_map, <- flat_map_concat_map. Qed.
Lemma fv2 k t a b : ~ In k [KVar; KNonTerm] -> fv (Node k t [a; b]) = fv a ++ fv b.
Proof. intros N. cbn [fv flat_map]. rewrite app_nil_r. destruct k; auto; exfalso; apply N; simpl; auto. Qed.
Lemma bin_fv op a b o : bin_obj op a b = Ok o -> fv (o_src o) = fv (o_src a) ++ fv (o_src b).
Proof.
  unfold bin_obj. destruct (_ || _); [discriminate|]. intros H.
  repeat match type of H with (if ?c then _ else _) = _ => destruct c end; try discriminate H; apply int_op_ok in H; subst o; cbn [o_src]; apply fv2; cbn; intuition discriminate.
Qed.
Lemma cmp_fv op a b o : cmp_obj op a b = Ok o -> fv (o_src o) = fv (o_src a) ++ fv (o_src b).
Proof.
  unfold cmp_obj. destruct (_ || _); [discriminate|]. intros H.
  repeat match type of H with (if ?c then _ else _) = _ => destruct c end; try discriminate H;
    try (apply int_cmp_ok in H; subst o; cbn [o_src]; apply fv2; cbn; intuition discriminate).
  - apply int_eq_ok in H. subst o. cbn [o_src]. apply fv2; cbn; intuition discriminate.
  - ok H e Ee. ok H n En. injection H as <-. apply int_eq_ok in Ee. apply not_ok in En. subst e n. cbn [o_src].
    change (fv (Node KEq TBool [o_src a; o_src b]) ++ [] = fv (o_src a) ++ fv (o_src b)). rewrite app_nil_r. apply fv2; cbn; intuition discriminate.
Qed.
Lemma getitem_fv l j o : getitem l (IxObj j) = Ok o -> fv (o_src o) = fv (o_src l) ++ fv (o_src j).
Proof. unfold getitem. intros H. ok H c C. apply call_fv in H. rewrite H. cbn [flat_map]. now rewrite app_nil_r. Qed.
Lemma len_fv l o : o_len l = Ok o -> fv (o_src o) = fv (o_src l).
Proof. unfold o_len. intros H. destruct (o_ty l); try discriminate H; apply call_fv in H; rewrite H; cbn [flat_map]; now rewrite app_nil_r. Qed.

Lemma new_fv b i X X' S v v' : okst S (st v b) -> ok_instr an uninterp sn X i = Some X' -> VI b i v = Ok v' ->
  forall n o, In n (defs1 i) -> sget (st v' b) n = Some o -> incl (fv (o_src o)) (rfv (st v b) (reads1 i)).
Proof.
  intros OS K V. destruct i as [x t|x p src|val dst|op x l r|cond x l r|op x a|x p f args t|t|c t e|o|]; try discriminate K; intros n o0 IN SG; unfold visit_instr in V.
  - ok V o Eo. injection V as <-. destruct IN as [<-|[]]. rewrite (proj2 (set_ptr_facts _ _ _ _)), sget_same in SG. injection SG as <-.
    cbn [ok_instr] in K. destruct t; try discriminate K; cbn [default_value] in Eo.
    + injection Eo as <-. intros y [].
    + injection Eo as <-. intros y [].
    + rewrite (list_empty_fv _ Eo). intros y [].
  - cbn [ok_instr] in K. destruct src as [y [] | | |]; try discriminate K. ok V o Eo. injection V as <-. destruct IN as [<-|[]].
    assert (Eo' : read_or_load_operand (st v b) (OName y true) = Ok o) by exact Eo. apply operand_fv in Eo'.
    replace o0 with o; auto. destruct p; rewrite ?(proj2 (set_ptr_facts _ _ _ _)), ?(proj2 (set_prim_facts _ _ _ _)), sget_same in SG; congruence.
  - cbn [ok_instr] in K. destruct dst as [y [] | | |]; try discriminate K. ok V o Eo. injection V as <-. destruct IN as [<-|[]].
    rewrite (proj2 (set_ptr_facts _ _ _ _)), sget_same in SG. injection SG as <-. now apply operand_fv.
  - cbn [ok_instr] in K. destruct (_ && _) eqn:C; [|discriminate]. repeat (apply andb_true_iff in C as [C ?]).
    repeat match goal with H : negb _ = true |- _ => apply negb_true_iff in H end.
    ok V lo El. ok V ro Er. ok V o Eo. injection V as <-. rewrite read_load in El, Er by auto. destruct IN as [<-|[]].
    rewrite (proj2 (set_prim_facts _ _ _ _)), sget_same in SG. injection SG as <-. rewrite (bin_fv _ _ _ _ Eo). cbn [reads1]. rewrite rfv_app.
    apply incl_app; [apply incl_appl, operand_fv, El | apply incl_appr, operand_fv, Er].
  - cbn [ok_instr] in K. destruct (_ && _) eqn:C; [|discriminate]. repeat (apply andb_true_iff in C as [C ?]).
    repeat match goal with H : negb _ = true |- _ => apply negb_true_iff in H end.
    ok V lo El. ok V ro Er. ok V o Eo. injection V as <-. rewrite read_load in El, Er by auto. destruct IN as [<-|[]].
    rewrite (proj2 (set_prim_facts _ _ _ _)), sget_same in SG. injection SG as <-. rewrite (cmp_fv _ _ _ _ Eo). cbn [reads1]. rewrite rfv_app.
    apply incl_app; [apply incl_appl, operand_fv, El | apply incl_appr, operand_fv, Er].
  - cbn [ok_instr] in K. destruct (is_address a) eqn:IA.
    + destruct ((op =? "bitcast") && _) eqn:C; [|discriminate]. apply andb_true_iff in C as [C J].
      destruct a as [y []| | |]; try discriminate IA. rewrite C in V. cbn [is_ptr andb] in V. ok V o Eo. injection V as <-. destruct IN as [<-|[]]. cbn [is_address] in SG.
      rewrite (proj2 (set_ptr_facts _ _ _ _)), sget_same in SG. injection SG as <-.
      assert (Eo' : read_or_load_operand (st v b) (OName y true) = Ok o) by exact Eo. now apply operand_fv.
    + destruct (_ && _) eqn:C; [|discriminate]. repeat (apply andb_true_iff in C as [C ?]).
      repeat match goal with H : negb _ = true |- _ => apply negb_true_iff in H end.
      rewrite H0, andb_false_r in V. ok V o Eo. injection V as <-. rewrite read_load in Eo by auto. destruct IN as [<-|[]]. rewrite IA in SG.
      rewrite (proj2 (set_prim_facts _ _ _ _)), sget_same in SG. injection SG as <-. now apply operand_fv.
  - assert (PR : forall a, reg_ty an (true, a) <> None -> dmem (prims (st v b)) a = false).
    { intros a R. unfold dmem. destruct (dget (prims (st v b)) a) as [o|] eqn:E; auto.
      destruct (okobj_prim I an sn _ _ _ (os_obj _ _ _ _ _ OS (false, a) o E)) as (u & Ru). destruct (reg_ty an (true, a)) as [w|] eqn:RW; [|congruence].
      exfalso. eapply (disj_names an DISJ); eauto. }
    assert (SW : forall a o, reg_ty an (true, a) <> None -> set_where v b a o = Ok v' -> sget (st v' b) (true, a) = Some o).
    { intros a o R W. unfold set_where in W. rewrite (PR a R) in W. destruct (dmem (ptrs (st v b)) a); [|discriminate]. injection W as <-.
      now rewrite (proj2 (set_ptr_facts _ _ _ _)), sget_same. }
    cbn [ok_instr] in K. cbn [reads1 defs1] in *. destruct (f =? "push_back") eqn:PB.
    + apply String.eqb_eq in PB. subst f. destruct args as [|[a []| | |] [|e []]]; try discriminate K.
      destruct (_ && _) eqn:C; [|discriminate]. repeat (apply andb_true_iff in C as [C ?]). apply is_ty_eq in C. cbn [opty] in C.
      destruct (nmem (true, a) X); [|discriminate]. destruct IN as [<-|[]].
      unfold visit_call in V. cbn [String.eqb Ascii.eqb Bool.eqb orb] in V. ok V l El. ok V y Ey. destruct (is_list_type (o_ty l)); [|discriminate]. ok V o Eo.
      rewrite (SW a o) in SG by (auto; congruence). injection SG as <-. rewrite (call_fv _ _ _ _ Eo).
      apply (operands_fv (st v b) [OName a true; e] [l; y]). cbn [mapR]. rewrite El, Ey. reflexivity.
    + destruct (f =? "vector") eqn:VE.
      { apply String.eqb_eq in VE. subst f. destruct args as [|[a []| | |] []]; try discriminate K.
        destruct (_ && _) eqn:C; [|discriminate]. apply andb_true_iff in C as [C1 C2]. apply is_ty_eq in C1. apply ty_eqb_eq in C2. subst t. destruct IN as [<-|[]].
        unfold visit_call in V. cbn [String.eqb Ascii.eqb Bool.eqb orb new_vector] in V. ok V o Eo.
        rewrite (SW a o) in SG by (auto; congruence). injection SG as <-. rewrite (list_empty_fv _ Eo). intros y []. }
      cbn [orb] in IN. destruct (f =? "~vector") eqn:VD; [destruct IN|]. destruct IN as [<-|[]].
      destruct (f =? "clear") eqn:VC; [discriminate K|].
      destruct (mapO (opty an X) args) as [ts|] eqn:TS; [|discriminate].
      destruct (call_ty uninterp f ts t) as [u|] eqn:CT; [|discriminate].
      destruct (_ && _) eqn:C; [|discriminate].
      apply andb_true_iff in C as [C C3]. apply andb_true_iff in C as [C CL]. apply andb_true_iff in C as [C1 C2]. apply negb_true_iff in C2.
      assert (WR : forall o, v' = write_result v b x p o -> o0 = o).
      { intros o ->. rewrite write_result_eq, st_set_same, sget_same in SG by auto. congruence. }
      assert (AR : forall os, mapR (read_or_load_operand (st v b)) args = Ok os -> incl (flat_map (fun o => fv (o_src o)) os) (rfv (st v b) (flat_map op_names args))) by apply operands_fv.
      unfold call_ty in CT. unfold visit_call in V. rewrite PB, VE in V.
      destruct (f =? "newList") eqn:F1; [|destruct ((f =? "listLength") || (f =? "size")) eqn:F2; [|destruct (f =? "listAppend") eqn:F3;
        [|destruct (f =? "listGet") eqn:F4; [|destruct (f =? "operator[]") eqn:F5]]]]; cbn [orb] in *.
      * destruct args; [|discriminate]. ok V o Eo. injection V as <-. rewrite (WR o eq_refl), (list_empty_fv _ Eo). intros y [].
      * destruct args as [|a []]; try discriminate V. ok V l El. destruct (is_list_type (o_ty l)); [|discriminate]. ok V o Eo. injection V as <-.
        rewrite (WR o eq_refl), (len_fv _ _ Eo). cbn [flat_map]. rewrite app_nil_r. now apply operand_fv.
      * destruct args as [|a [|e []]]; try discriminate V. ok V l El. ok V y Ey. ok V o Eo. injection V as <-. rewrite (WR o eq_refl).
        assert (E : fv (o_src o) = flat_map (fun o => fv (o_src o)) [l; y]).
        { unfold append in Eo. ok Eo c0 Ec. destruct (ty_eqb (o_ty y) c0); [|discriminate]. apply (call_fv _ _ _ _ Eo). }
        rewrite E. apply (AR [l; y]). cbn [mapR]. now rewrite El, Ey.
      * destruct args as [|a [|e []]]; try discriminate V. ok V l El. ok V y Ey. ok V o Eo. injection V as <-. rewrite (WR o eq_refl), (getitem_fv _ _ _ Eo).
        cbn [flat_map]. rewrite app_nil_r, rfv_app. apply incl_app; [apply incl_appl, operand_fv, El | apply incl_appr, operand_fv, Ey].
      * destruct args as [|a [|e []]]; try discriminate V; destruct a as [a q| | |]; try discriminate V.
        ok V l El. ok V y Ey. ok V o Eo. rewrite write_result_eq in V by auto.
        assert (E : o0 = o \/ o0 = l).
        { unfold set_where in V. rewrite !st_set_same in V. destruct (dmem _ _) in V; [|destruct (dmem _ _) in V; [|discriminate]]; injection V as <-.
          - rewrite (proj2 (set_prim_facts _ _ _ _)), st_set_same in SG. destruct (name_dec (p, x) (false, a)) as [EQ|N]; [rewrite EQ, sget_same in SG; right; congruence|].
            rewrite sget_other, sget_same in SG by auto. left. congruence.
          - rewrite (proj2 (set_ptr_facts _ _ _ _)), st_set_same in SG. destruct (name_dec (p, x) (true, a)) as [EQ|N]; [rewrite EQ, sget_same in SG; right; congruence|].
            rewrite sget_other, sget_same in SG by auto. left. congruence. }
        cbn [flat_map]. rewrite app_nil_r, rfv_app. destruct E as [->| ->].
        -- rewrite (getitem_fv _ _ _ Eo). apply incl_app; [apply incl_appl, operand_fv, El | apply incl_appr, operand_fv, Ey].
        -- apply incl_appl, operand_fv, El.
      * destruct (smem f other_models) eqn:OM.
        -- ok V o Eo. injection V as <-. rewrite (WR o eq_refl). clear - CT Eo AR. destruct (smem f maths) eqn:FM; [|rewrite andb_false_r in CT; discriminate].
           assert (Q : (f =? "set_create") = false /\ (f =? "set_add") = false /\ (f =? "set_remove") = false /\
                        (f =? "MakeTuple") = false /\ (f =? "tupleGet") = false /\ (f =? "integer_sqrt") || (f =? "integer_exp") = true).
           { unfold maths in FM. apply smem_in in FM. cbn in FM. destruct FM as [<-|[<-|[]]]; repeat split. }
           destruct Q as (Q1 & Q2 & Q3 & Q4 & Q5 & Q6). unfold other_call in Eo. rewrite Q1, Q2, Q3, Q4, Q5, Q6 in Eo.
           destruct args as [|a []]; try discriminate Eo. ok Eo l El. rewrite (call_fv _ _ _ _ Eo). apply (AR [l]). cbn [mapR]. now rewrite El.
        -- assert (FU : smem f uninterp = true).
           { clear - CT OM. destruct (smem f uninterp); auto. cbn [andb] in CT. destruct (smem f maths) eqn:FM; [|discriminate].
             unfold maths in FM. apply smem_in in FM. cbn in FM. destruct FM as [<-|[<-|[]]]; discriminate OM. }
           rewrite FU in V. cbn [orb] in V. ok V os Eos. ok V o Eo. injection V as <-. rewrite st_set_same in SG.
           assert (o0 = o) by (destruct p; [change (sget (sset (st v b) (true, x) o) (true, x) = Some o0) in SG | change (sget (sset (st v b) (false, x) o) (false, x) = Some o0) in SG]; rewrite sget_same in SG; congruence).
           subst o0. rewrite (call_fv _ _ _ _ Eo). now apply AR.
Qed.

(** the values of the registers [Y] do not depend on the variables [hv] *)
Definition Cl (hv : list string) (s : lstate) (Y : list name) : Prop :=
  forall n o x, In n Y -> sget s n = Some o -> In x (fv (o_src o)) -> ~ In x hv.
Lemma cl_skip hv s Y i : defs1 i = [] -> Cl hv s Y -> Cl hv s (clean1 Y i).
Proof.
  intros D C n o x IN. apply C. unfold clean1 in IN. rewrite D in IN. destruct (forallb (fun n => nmem n Y) (reads1 i)); [exact IN|]. now apply filter_In in IN.
Qed.
Lemma cl_set hv s s' Y i n o : defs1 i = [n] -> sets s n o s' -> incl (fv (o_src o)) (rfv s (reads1 i)) -> Cl hv s Y -> Cl hv s' (clean1 Y i).
Proof.
  intros D SE IC C m u x IN SG FX. unfold clean1 in IN. rewrite D in IN.
  assert (OT : m <> n -> In m Y -> ~ In x hv).
  { intros N INY. rewrite (se_other _ _ _ _ SE m N) in SG. apply (C m u x INY SG FX). }
  destruct (forallb (fun n => nmem n Y) (reads1 i)) eqn:FB.
  - destruct (name_dec m n) as [->|N]; [|apply OT; auto; destruct IN as [->|IN]; [congruence|exact IN]].
    rewrite (se_same _ _ _ _ SE) in SG. injection SG as <-. apply IC in FX. unfold rfv in FX. apply in_flat_map in FX as (k & INk & FX).
    rewrite forallb_forall in FB. specialize (FB k INk). apply nmem_in in FB. destruct (sget s k) as [ok|] eqn:E; [|destruct FX]. apply (C k ok x FB E FX).
  - apply filter_In in IN as [INY NM]. apply OT; auto. intros ->. unfold nmem in NM. cbn in NM. assert (name_eqb n n = true) by (destruct n as [[] y]; unfold name_eqb; cbn; apply String.eqb_refl).
    rewrite H in NM. discriminate.
Qed.

(** ** The instructions of a block, up to the last one *)

Record ran (b : string) (is : list instr) (i : instr) (X X' : list name) (S : list string) (v vm : visitor) : Prop := {
  rn_last : last_instr is = Some i;
  rn_term : ok_terminator an X' i = true;
  rn_same : same_but b v vm;
  rn_ty : typesok vm;
  rn_ok : okst S (st vm b);
  rn_keep : forall n, ~ In n (defs is) -> sget (st vm b) n = sget (st v b) n;
  rn_dom : forall n o, sget (st vm b) n = Some o -> sget (st v b) n <> None \/ In n (defs is);
  rn_pre : l_precond (st vm b) = l_precond (st v b);
  rn_ass : l_asserts (st vm b) = l_asserts (st v b);
  rn_cl : forall hv Y, Cl hv (st v b) Y -> Cl hv (st vm b) (fold_left clean1 is Y);
  rn_run : forall r c out, Lk X (st v b) r c -> lsteps U c is = Some out -> exists c', Lk X' (st vm b) r c' /\ lstep U c' i = Some out }.

Lemma body_char b is : forall X X' S v v', okst S (st v b) -> typesok v -> ok_instrs an uninterp sn X is = Some X' ->
  runS (VI b) is v = Ok v' -> exists i vm, ran b is i X X' S v vm /\ VI b i vm = Ok v'.
Proof.
  induction is as [|i is IH]; intros X X' S v v' OS T K R; [discriminate|]. destruct is as [|i2 is].
  - cbn [ok_instrs] in K. destruct (ok_terminator an X i) eqn:TR; [|discriminate]. injection K as <-. cbn [runS] in R. ok R v1 E. injection R as <-.
    exists i, v. split; auto. constructor; auto using same_refl.
    + intros n o E'. left. congruence.
    + intros hv Y C. cbn [fold_left]. apply cl_skip; auto. destruct i; discriminate TR || reflexivity.
    + intros r c out L ST. exists c. split; auto. cbn in ST. destruct (lstep U c i) as [[]|] eqn:LS; try congruence.
  - set (rest := i2 :: is) in *. cbn [ok_instrs] in K. unfold rest in K at 1. destruct (ok_instr an uninterp sn X i) as [X1|] eqn:OI; [|discriminate]. fold rest in K.
    cbn [runS] in R. ok R v1 E1.
    destruct (step_char I U an uninterp LIB UNI sn SRT DISJ fn fargs sret b i X X1 S v v1 OS T OI E1) as [(n & o & D1 & SB & T1 & SE & OO & DY)|(D1 & -> & DY)];
    [|destruct (IH X1 X' S v v' OS T K R) as (j & vm & RN & VJ); exists j, vm; split; auto;
      destruct RN as [A1 A2 A3 A4 A5 A6 A7 A8 A9 A11 A10]; constructor; auto;
      [intros m N; apply A6; intros IN; apply N; unfold defs; cbn [flat_map]; now rewrite D1
      |intros m o' E; unfold defs; cbn [flat_map]; rewrite D1; apply (A7 m o' E)
      |intros hv Y C; cbn [fold_left]; now apply A11, cl_skip
      |intros r c out L ST; cbn [lsteps] in ST; destruct (lstep U c i) as [o1|] eqn:LS; [|discriminate];
       destruct (DY r c o1 L LS) as (c1 & -> & L1); apply (A10 r c1 out L1 ST)]].
    assert (OS1 : okst S (st v1 b)) by (eapply okst_sets; eauto).
    destruct (IH X1 X' S v1 v' OS1 T1 K R) as (j & vm & RN & VJ). exists j, vm. split; auto.
    destruct RN as [A1 A2 A3 A4 A5 A6 A7 A8 A9 A11 A10]. constructor; auto.
    + eapply same_trans; eauto.
    + intros m N. unfold defs in N. cbn [flat_map] in N. rewrite in_app_iff, D1 in N. rewrite A6 by tauto. apply (se_other _ _ _ _ SE). intros ->. apply N. left. now left.
    + intros m o' E. unfold defs. cbn [flat_map]. rewrite in_app_iff, D1. destruct (A7 m o' E) as [H|H]; [|auto].
      destruct (name_dec m n) as [->|N]; [right; left; now left|]. rewrite (se_other _ _ _ _ SE m N) in H. auto.
    + rewrite A8. apply (se_pre _ _ _ _ SE).
    + rewrite A9. apply (se_ass _ _ _ _ SE).
    + intros hv Y C. cbn [fold_left]. apply A11. eapply cl_set; eauto. eapply new_fv; eauto; [rewrite D1; now left | apply (se_same _ _ _ _ SE)].
    + intros r c out L ST. cbn [lsteps] in ST. destruct (lstep U c i) as [o1|] eqn:LS; [|discriminate].
      destruct (DY r c o1 L LS) as (c1 & -> & L1). apply (A10 r c1 out L1 ST).
Qed.

(** ** Loop headers *)

Definition havoc_obj (v : visitor) (o : obj) : Prop := exists x t, o = var_obj t x /\ get_var_type v x = Ok t /\ label_ok an (true, x) t = true.

Lemma get_havocs_ok v lo hv : typesok v -> forallb (fun x => dmem (a_ptr an) x && negb (smem x (a_junk an))) (lo_havocs lo) = true ->
  get_havocs v lo = Ok hv ->
  Forall (havoc_obj v) hv /\ (forall x, In x (lo_havocs lo) <-> exists t, In (var_obj t x) hv).
Proof.
  intros [T1 T2] D H. unfold get_havocs in H. rewrite forallb_forall in D.
  assert (Q : forall l os, incl l (lo_havocs lo) -> mapR (fun x => t <- get_var_type v x ;; Ok (var_obj t x)) l = Ok os ->
     Forall (havoc_obj v) os /\ (forall x, In x l <-> exists t, In (var_obj t x) os)).
  { induction l as [|x l IH]; intros os INC M; cbn [mapR] in M.
    - injection M as <-. split; [constructor|]. intros x. split; [intros [] | intros (t & [])].
    - ok M o Eo. ok M os' Eos. injection M as <-. ok Eo t Et. injection Eo as <-.
      destruct (IH os') as [A B]; auto. { intros y Y. apply INC. now right. }
      assert (R : label_ok an (true, x) t = true).
      { assert (DM : dmem (a_ptr an) x && negb (smem x (a_junk an)) = true) by (apply D, INC; now left).
        apply andb_true_iff in DM as [DM NJ]. apply negb_true_iff in NJ. assert (J : junk an (true, x) = false) by exact NJ.
        unfold get_var_type in Et. destruct (dget (v_prim_types v) x) as [u|] eqn:E.
        - exfalso. apply dmem_some in DM as [w W]. eapply (disj_names an DISJ x u w); [now apply label_prim, T1 | unfold reg_ty; rewrite J; exact W].
        - destruct (dget (v_ptr_types v) x) as [u|] eqn:E2; [|discriminate]. injection Et as <-. specialize (T2 x u E2). now rewrite J in T2. }
      split; [constructor; auto; exists x, t; auto|]. intros y. split.
      + intros [<-|Y]; [exists t; now left|]. destruct (proj1 (B y) Y) as (u & IN). exists u. now right.
      + intros (u & [E'|IN]); [injection E'; intros; subst; now left|]. right. apply B. eauto. }
  destruct (Q (sorted_set (lo_havocs lo)) hv) as [A B]; auto. { intros x X. exact (proj1 (sorted_set_in _ _) X). }
  split; auto. intros x. rewrite <- (B x). symmetry. apply sorted_set_in.
Qed.

Definition put_havocs (b : string) : list obj -> visitor -> res visitor :=
  fix go (os : list obj) (v : visitor) : res visitor :=
          match os with
          | [] => Ok v
          | o :: r => x <- var_name o ;; go r (set_ptr v b x o)
          end.

Lemma put_havocs_ok v0 b hv : forall v v', put_havocs b hv v = Ok v' -> Forall (havoc_obj v0) hv -> typesok v ->
  same_but b v v' /\ typesok v' /\
  (forall m, (forall t, fst m = true -> ~ In (var_obj t (snd m)) hv) -> sget (st v' b) m = sget (st v b) m) /\
  (forall x t, In (var_obj t x) hv -> sget (st v' b) (true, x) = Some (var_obj t x) /\ label_ok an (true, x) t = true) /\
  l_precond (st v' b) = l_precond (st v b) /\ l_asserts (st v' b) = l_asserts (st v b) /\ prims (st v' b) = prims (st v b) /\
  (NoDup (dkeys (ptrs (st v b))) -> NoDup (dkeys (ptrs (st v' b)))).
Proof.
  induction hv as [|o hv IH]; intros v v' P F T; cbn [put_havocs] in P.
  - injection P as <-. split; [apply same_refl|]. split; auto. split; auto. split; [intros x t []|]. auto.
  - inversion F as [|? ? (x & t & -> & GT & R) F']; subst. cbn [var_name var_obj o_src mkVar bindR] in P.
    destruct (set_ptr_facts v b x (var_obj t x)) as [SB ES].
    assert (T1 : typesok (set_ptr v b x (var_obj t x))) by (apply set_ptr_types; auto; cbn [o_ty var_obj]; apply orb_true_iff; auto).
    destruct (IH _ _ P F' T1) as (A1 & A2 & A3 & A4 & A5 & A6 & A7 & A8). rewrite ES in *.
    split; [eapply same_trans; eauto|]. split; auto. split; [|split; [|split; [|split; [|split]]]]; auto.
    + intros m N. rewrite A3. * apply sget_other. intros ->. apply (N t eq_refl). now left. * intros u E IN. apply (N u E). now right.
    + intros y u [E'|IN]; [|auto]. assert (y = x) by (injection E'; auto). assert (u = t) by (injection E'; auto). subst y u.
      split; [|exact R]. destruct (in_dec string_dec x (map (fun o => match var_name o with Ok y => y | Err _ => EmptyString end) hv)) as [IN|NI].
      * apply in_map_iff in IN as (o & E & IN). rewrite Forall_forall in F'. destruct (F' o IN) as (y & u & -> & GT' & R').
        cbn in E. subst y. rewrite GT in GT'. injection GT' as <-. apply (A4 x t IN).
      * rewrite A3; [apply sget_same|]. cbn [fst snd]. intros u _ IN. apply NI. apply in_map_iff. exists (var_obj u x). split; auto.
    + intros N. apply A8. cbn. now apply dset_nodup.
Qed.

Lemma lpred_ext p s s' : prims s' = prims s -> ptrs s' = ptrs s -> lpred_call p s' = lpred_call p s.
Proof.
  intros A B. unfold lpred_call. f_equal. induction (p_args p) as [|v vs IH]; cbn [mapR]; auto.
  rewrite IH. destruct (var_name v); cbn [bindR]; auto. unfold read_or_load_var. now rewrite A, B.
Qed.
Lemma read_var_get s x o : read_or_load_var s x = Ok o -> exists p, sget s (p, x) = Some o.
Proof.
  unfold read_or_load_var. intros H. destruct (dget (prims s) x) eqn:E; [exists false; cbn; congruence|].
  destruct (dget (ptrs s) x) eqn:E2; [|discriminate]. exists true. cbn. congruence.
Qed.
Lemma lpred_shape p s i : lpred_call p s = Ok i ->
  exists os, mapR (fun v => x <- var_name v ;; read_or_load_var s x) (p_args p) = Ok os /\
             i = Node KCall TBool (Atom (PStr (p_name p)) :: map o_src os).
Proof. unfold lpred_call. intros H. ok H os Eos. ok H o Eo. apply call_ok in Eo. subst o. injection H as <-. eauto. Qed.
Lemma lpred_ok S S2 p s i : okst S s -> lpred_call p s = Ok i ->
  (forall v x q o, In v (p_args p) -> var_name v = Ok x -> sget s (q, x) = Some o ->
     junk an (q, x) = false /\ lit an (q, x) = false /\ incl (ns an sn S (q, x)) S2) ->
  (forall vs, exists b, i_call I (p_name p) vs = Some (VBool b)) -> okcond I an S2 i.
Proof.
  intros OS H AR TOT. destruct (lpred_shape _ _ _ H) as (os & M & ->).
  assert (F : Forall (fun o => good S2 (o_src o) /\ forall r, fits (G an) r -> exists v, eval I r (o_src o) = Some v) os).
  { clear - OS M AR. revert os M. induction (p_args p) as [|v vs IH]; intros os M; cbn [mapR] in M; [injection M as <-; constructor|].
    ok M o Eo. ok M os' Eos. injection M as <-. constructor; [|apply IH; auto; intros v' x q o' IN; apply AR; now right].
    ok Eo x Ex. destruct (read_var_get _ _ _ Eo) as [q Q]. destruct (AR v x q o (or_introl eq_refl) Ex Q) as (J & L & INC).
    destruct (os_obj _ _ _ _ _ OS _ _ Q) as [(A1 & A2 & _) _ _ D]. split.
    - split; [apply A2; now rewrite J, L | eapply incl_tran; eauto].
    - intros r R. destruct (D r R) as (w & E & _). eauto. }
  constructor.
  - eapply (gv_goodb true). apply gv_call. rewrite Forall_map. eapply Forall_impl; [|exact F]. intros o [GA _]. exact GA.
  - intros r R. assert (MV : exists vs, mapO (eval I r) (map o_src os) = Some vs).
    { clear - F R. induction F as [|o os [_ V] F (vs & IH)]; [exists []; reflexivity|].
      destruct (V r R) as (w & E). exists (w :: vs). cbn [map mapO]. now rewrite E, IH. }
    destruct MV as [vs MV]. destruct (TOT vs) as [b E]. exists b. 
    change (match mapO (eval I r) (map o_src os) with Some vs => i_call I (p_name p) vs | None => None end = Some (VBool b)). now rewrite MV.
Qed.
(** the arguments of a predicate are neither pointers that are never read nor Booleans
    that may be constants; [s]: whether the cell for the result may be one of them *)
Definition argsok (s : bool) (p : predicate) : Prop := forall v x, In v (p_args p) -> var_name v = Ok x ->
  smem x (a_junk an) = false /\ smem x (a_lits an) = false /\ (s = false -> is_sret sn x = false).
Lemma lpred_args S p s i (x : bool) : okst S s -> lpred_call p s = Ok i -> argsok x p ->
  (forall vs, exists b, i_call I (p_name p) vs = Some (VBool b)) -> okcond I an (if x then xs sn S else S) i.
Proof.
  intros OS H AR TOT. eapply lpred_ok; eauto. intros v y q o IN E Q. destruct (AR v y IN E) as (A & B & C).
  assert (J : junk an (q, y) = false) by (unfold junk; cbn; rewrite A; apply andb_false_r). split; auto. split.
  - unfold lit. cbn. rewrite B. destruct (reg_ty an (q, y)) as [[]|]; auto.
  - unfold ns. rewrite J. cbn [orb fst snd]. destruct x; [destruct (q && _); [apply incl_refl | apply xs_incl]|].
    rewrite (C eq_refl), andb_false_r. apply incl_refl.
Qed.

Variable grammars : dict (list string * list obj).
Notation inv_name := (inv_name fn).

Lemma loop_inv_states v s n hv v' p : loop_inv fn fargs grammars v s n hv = Ok (v', p) ->
  v_states v' = v_states v /\ v_prim_types v' = v_prim_types v /\ v_ptr_types v' = v_ptr_types v.
Proof.
  intros H. unfold loop_inv in H. ok H a0 Ea. destruct (dget (v_preds v) (inv_name n)) as [q|] eqn:E.
  - injection H as <- <-. auto.
  - ok H rest Er. injection H as <- <-. auto.
Qed.
(** the predicate of a loop has its name *)
Definition preds_named (v : visitor) : Prop := forall n p, dget (v_preds v) (inv_name n) = Some p -> p_name p = inv_name n.
End Body.
