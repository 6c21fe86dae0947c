(** Proofs about the Python frontend, part 5: the state after an if statement, for
    all programs, and comparisons. *)

From Coq Require Import String List ZArith Bool Lia.
From Verif Require Import Ast Semantics Dict IrProofs3 UtilModel UtilProofs ObjModel PyModel PySem PyProofs PyProofs2 PyProofs3.
Import ListNotations.
Local Open Scope Z_scope.
Local Open Scope string_scope.
Local Open Scope list_scope.

(** ** The variables of a state are distinct *)

Definition nd (s : state) : Prop := NoDup (dkeys (vars s)).

Lemma nd_write s x o : nd s -> nd (write s x o).
Proof. apply dset_nodup. Qed.

Lemma mapS_nd (f : pexpr -> state -> res (obj * state)) es :
  Forall (fun e => forall s p, f e s = Ok p -> nd s -> nd (snd p)) es ->
  forall s p, mapS f es s = Ok p -> nd s -> nd (snd p).
Proof.
  induction 1 as [|e es H _ IH]; intros s p M N; cbn [mapS] in M.
  - injection M as <-. exact N.
  - ok M p1 E1. ok M p2 E2. injection M as <-. cbn [snd]. eapply IH; eauto.
Qed.

Lemma vexpr_nd un e : forall s p, vexpr un e s = Ok p -> nd s -> nd (snd p).
Proof.
  induction e using pexpr_ind'; intros s p V N; cbn [vexpr] in V.
  - injection V as <-; exact N.
  - ok V o E. injection V as <-; exact N.
  - ok V q E. ok V o E2. injection V as <-. eapply mapS_nd; eauto.
  - ok V q E. ok V q2 E2. ok V o E3. injection V as <-. cbn [snd]. eauto.
  - ok V q E. ok V o E2. injection V as <-. eapply mapS_nd; eauto.
  - ok V q E. ok V q2 E2. ok V o E3. injection V as <-. cbn [snd]. eauto.
  - destruct es; [|discriminate]. ok V o E. injection V as <-. exact N.
  - destruct (String.eqb op "-"); [|discriminate]. ok V q E. destruct (ty_eqb (o_ty (fst q)) TInt); [|discriminate].
    ok V o E2. injection V as <-. cbn [snd]. eauto.
  - destruct (String.eqb f "len").
    + ok V q E. ok V a E2. destruct (is_list_type (o_ty a)); [|discriminate]. ok V o E3. injection V as <-.
      eapply mapS_nd; eauto.
    + destruct (smem f un); [|discriminate]. ok V q E. ok V t' E2. ok V o E3. injection V as <-.
      eapply mapS_nd; eauto.
  - destruct (String.eqb m "append").
    + ok V q E. destruct (negb (is_list_type (o_ty (fst q)))); [discriminate|]. ok V q2 E2. ok V a E3. ok V x E4. ok V l E5.
      injection V as <-. cbn [snd]. apply nd_write. eapply mapS_nd; eauto.
    + destruct (String.eqb m "add" || String.eqb m "remove"); [|discriminate]. ok V q E.
      destruct (o_ty (fst q)); try discriminate. ok V q2 E2. ok V a E3. ok V si E4. ok V rr E5. ok V x E6.
      injection V as <-. cbn [snd]. apply nd_write. eapply mapS_nd; eauto.
Qed.

Lemma havoc_nd ws : forall g s q, havoc ws g s = Ok q -> nd s -> nd (snd q).
Proof.
  induction ws as [|o ws IH]; intros g s q H N; cbn [havoc] in H.
  - injection H as <-; exact N.
  - ok H x E. eapply IH; eauto. now apply nd_write.
Qed.

Section Stmts.
Variables (fn : string) (fargs : list obj) (un : list string) (types : dict mtype).
Notation vstmt := (vstmt fn fargs un types).

Lemma runS_nd ss : Forall (fun st => forall gs q, vstmt st gs = Ok q -> nd (snd gs) -> nd (snd q)) ss ->
  forall gs q, runS vstmt ss gs = Ok q -> nd (snd gs) -> nd (snd q).
Proof.
  induction 1 as [|st ss H _ IH]; intros gs q R N; cbn [runS] in R.
  - injection R as <-; exact N.
  - ok R q1 E. eapply IH; eauto.
Qed.

Lemma merge_vars_nd cond cs a : forall acc d, merge_vars cond cs a acc = Ok d -> NoDup (dkeys acc) -> NoDup (dkeys d).
Proof.
  induction cs as [|[v c] cs IH]; intros acc d M N; cbn [merge_vars] in M.
  - injection M as <-; exact N.
  - destruct (dget a v) as [ae|]; [|discriminate]. ok M om E. eapply IH; eauto. now apply dset_nodup.
Qed.

Lemma vstmt_nd st : forall gs q, vstmt st gs = Ok q -> nd (snd gs) -> nd (snd q).
Proof.
  induction st using stmt_ind'; intros [g s] q V N; cbn [fst snd] in *.
  - destruct xs as [|x [|y xs]]; try discriminate. cbn [PyModel.vstmt fst snd] in V. ok V p E. injection V as <-. cbn [snd].
    apply nd_write. eapply vexpr_nd; eauto.
  - cbn [PyModel.vstmt fst snd] in V. ok V p E. injection V as <-. cbn [snd]. eapply vexpr_nd; eauto.
  - cbn [PyModel.vstmt fst snd] in V. ok V wr E1. ok V rd E2. ok V sc E3. ok V gi E4. ok V i0 E5. ok V a0 E6. ok V h E7. ok V b' E8.
    ok V pc E9. ok V i1 E10. ok V hyp E11. ok V i2 E12. ok V a1 E13. ok V a2 E14. ok V nc E15. ok V i3 E16. ok V exq E17.
    injection V as <-. cbn [snd]. apply (vexpr_nd _ _ _ _ E9). apply (havoc_nd _ _ _ _ E7). exact N.
  - cbn [PyModel.vstmt fst snd] in V. destruct (dget (g_post g) fn) as [p|]; [|discriminate]. ok V p1 E. ok V ps E2. ok V a E3.
    injection V as <-. cbn [snd]. apply (vexpr_nd _ _ _ _ E). exact N.
  - cbn [PyModel.vstmt fst snd] in V. ok V p E. destruct (negb (ty_eqb (o_ty (fst p)) TBool)); [discriminate|]. ok V nc E2.
    ok V x E3. ok V y E4. ok V s' E5. injection V as <-. cbn [snd].
    assert (N1 : nd (snd p)) by (eapply vexpr_nd; eauto).
    assert (NX : nd (snd x)) by (apply (runS_nd _ H _ _ E3); exact N1).
    assert (NY : nd (snd y)) by (apply (runS_nd _ H0 _ _ E4); exact N1).
    unfold merge_if in E5. destruct (has_returned (snd x)), (has_returned (snd y)).
    + injection E5 as <-. exact N1.
    + injection E5 as <-. exact NY.
    + injection E5 as <-. exact NX.
    + destruct (existsb _ _); [discriminate|]. ok E5 d E6. injection E5 as <-. unfold nd. cbn [vars set_vars].
      eapply merge_vars_nd; eauto.
  - discriminate.
Qed.

Lemma vblock_nd ss gs q : runS vstmt ss gs = Ok q -> nd (snd gs) -> nd (snd q).
Proof. apply runS_nd. apply Forall_forall. intros st _. apply vstmt_nd. Qed.

(** ** After an if statement *)

Lemma if_parts c body els g s q : vstmt (SIf c body els) (g, s) = Ok q ->
  exists co s1 nc gc sc ga sa s',
    vexpr un c s = Ok (co, s1) /\ mkNot [o_src co] = Ok nc /\
    runS vstmt body (g, add_precond s1 (o_src co)) = Ok (gc, sc) /\
    runS vstmt els (gc, add_precond s1 nc) = Ok (ga, sa) /\
    merge_if co s1 sc sa = Ok s' /\ q = (ga, s').
Proof.
  intros V. cbn [PyModel.vstmt fst snd] in V. ok V p E. destruct (negb (ty_eqb (o_ty (fst p)) TBool)); [discriminate|].
  ok V nc E2. ok V x E3. ok V y E4. ok V s' E5. injection V as <-.
  destruct p as [co s1], x as [gc sc], y as [ga sa]. cbn [fst snd] in *.
  exists co, s1, nc, gc, sc, ga, sa, s'. auto 10.
Qed.

Lemma merge_if_vars co s1 sc sa s' :
  nd sc -> nd s1 -> merge_if co s1 sc sa = Ok s' -> has_returned sc = false -> has_returned sa = false ->
  forall x oc oa, dget (vars sc) x = Some oc -> dget (vars sa) x = Some oa ->
  exists o, dget (vars s') x = Some o /\
    match o_ty oc with
    | TInt | TBool => forall I r b, eval I r (o_src co) = Some (VBool b) ->
        eval I r (o_src o) = if b then eval I r (o_src oc) else eval I r (o_src oa)
    | TTuple _ => lits_agree (o_src oc) (o_src oa) -> forall I r b, eval I r (o_src co) = Some (VBool b) ->
        eval I r (o_src o) = if b then eval I r (o_src oc) else eval I r (o_src oa)
    | TFn _ => True
    | _ => o = oc
    end.
Proof.
  intros NC N1 M RC RA x oc oa DC DA. unfold merge_if in M. rewrite RC, RA in M.
  destruct (existsb _ _); [discriminate|]. ok M d E. injection M as <-. cbn [vars set_vars].
  destruct (merge_vars_spec co (vars sc) (vars sa) (vars s1) d NC N1 E) as (_ & _ & D2).
  destruct (D2 x oc DC) as (oa' & o & DA' & D & MM). rewrite DA in DA'. injection DA' as <-.
  exists o. split; [exact D|]. unfold obj_ne in MM.
  destruct (o_ty oc) eqn:T; auto; try (injection MM as <-; reflexivity).
  - apply ite_ok in MM as (t & ->). intros I r b EC. cbn [o_src eval mapO]. rewrite EC. destruct b; reflexivity.
  - apply ite_ok in MM as (t & ->). intros I r b EC. cbn [o_src eval mapO]. rewrite EC. destruct b; reflexivity.
  - intros L I r b EC. destruct (expr_eqb (o_src oc) (o_src oa)) eqn:Q; cbn [negb] in MM.
    + injection MM as <-. rewrite (equal_same_value I _ _ r Q L). now destruct b.
    + apply ite_ok in MM as (t & ->). cbn [o_src eval mapO]. rewrite EC. destruct b; reflexivity.
Qed.

Lemma merge_if_names co s1 sc sa s' x : merge_if co s1 sc sa = Ok s' -> has_returned sc = false -> has_returned sa = false ->
  nd sc -> nd s1 ->
  (forall y, dmem (vars s1) y = true -> dmem (vars sc) y = true) ->
  dmem (vars s') x = true -> dmem (vars sc) x = true /\ dmem (vars sa) x = true.
Proof.
  intros M RC RA NC N1 SUB D. unfold merge_if in M. rewrite RC, RA in M.
  destruct (existsb _ _); [discriminate|]. ok M d E. injection M as <-. cbn [vars set_vars] in D.
  destruct (merge_vars_spec co (vars sc) (vars sa) (vars s1) d NC N1 E) as (_ & D1 & D2).
  destruct (dget (vars sc) x) as [oc|] eqn:DC.
  - destruct (D2 x oc DC) as (oa & o & DA & _). split; unfold dmem; [rewrite DC|rewrite DA]; reflexivity.
  - unfold dmem in D. rewrite (D1 x DC) in D. specialize (SUB x). unfold dmem in SUB. rewrite DC in SUB.
    destruct (dget (vars s1) x); [|discriminate]. specialize (SUB eq_refl). discriminate.
Qed.
End Stmts.

(** ** Comparisons *)

Lemma process_comparison_value op a b o I r x y :
  process_comparison op a b = Ok o ->
  eval I r (o_src a) = Some (VInt x) -> eval I r (o_src b) = Some (VInt y) ->
  exists t, py_cmp op (VInt x) (VInt y) = Some t /\ eval I r (o_src o) = Some (VBool t).
Proof.
  unfold process_comparison, py_cmp. intros P EA EB.
  destruct (negb (ty_eqb (o_ty a) TInt) || negb (ty_eqb (o_ty b) TInt)); [discriminate|].
  destruct (String.eqb op ">") eqn:E1.
  { apply String.eqb_eq in E1. subst op. apply int_cmp_ok in P. subst o. cbn. rewrite EA, EB. eauto. }
  destruct (String.eqb op "<") eqn:E2.
  { apply String.eqb_eq in E2. subst op. apply int_cmp_ok in P. subst o. cbn. rewrite EA, EB. eauto. }
  destruct (String.eqb op "==") eqn:E3.
  { apply String.eqb_eq in E3. subst op. apply int_eq_ok in P. subst o. cbn. rewrite EA, EB. cbn. eauto. }
  destruct (String.eqb op ">=") eqn:E4.
  { apply String.eqb_eq in E4. subst op. apply int_cmp_ok in P. subst o. cbn. rewrite EA, EB. eauto. }
  destruct (String.eqb op "<=") eqn:E5.
  { apply String.eqb_eq in E5. subst op. apply int_cmp_ok in P. subst o. cbn. rewrite EA, EB. eauto. }
  discriminate.
Qed.

(** Python's meaning of a chain of comparisons of integers: all of them hold *)
Fixpoint all_hold (x : Z) (ops : list string) (ys : list Z) : option bool :=
  match ops, ys with
  | [], [] => Some true
  | op :: ops', y :: ys' =>
      match py_cmp op (VInt x) (VInt y) with
      | Some true => all_hold y ops' ys'
      | o => o
      end
  | _, _ => None
  end.
Lemma all_hold_spec U strict st : forall ops x ys,
  pyeval U strict st (ECmp ops (map EInt (x :: ys))) = option_map VBool (all_hold x ops ys).
Proof.
  intros ops x ys. cbn [pyeval map]. revert x ys. induction ops as [|op ops IH]; intros x [|y ys]; try reflexivity.
  cbn [map pyeval all_hold]. destruct (py_cmp op (VInt x) (VInt y)) as [[]|]; try reflexivity. apply IH.
Qed.

(** the value of the last comparison *)
Fixpoint last_holds (x : Z) (ops : list string) (ys : list Z) : option bool :=
  match ops, ys with
  | [op], y :: _ => py_cmp op (VInt x) (VInt y)
  | _ :: ops', y :: ys' => last_holds y ops' ys'
  | _, _ => None
  end.

Lemma compare_chain_value I r : forall ops operands e left o x ys,
  compare_chain e ops left operands = Ok o ->
  eval I r (o_src left) = Some (VInt x) -> Forall2 (fun p y => eval I r (o_src p) = Some (VInt y)) operands ys ->
  ops <> [] ->
  exists t, last_holds x ops ys = Some t /\ eval I r (o_src o) = Some (VBool t).
Proof.
  induction ops as [|op ops IH]; intros operands e left o x ys C EL F NE; [congruence|].
  cbn [compare_chain] in C. destruct operands as [|p operands]; [discriminate|]. ok C e' E.
  inversion F as [|? y ? ys' EP F']; subst.
  destruct ops as [|op2 ops].
  - cbn in C. injection C as <-. eapply process_comparison_value in E; eauto.
  - eapply IH in C; eauto. discriminate.
Qed.

Lemma comparison_value I r ops l operands o x ys :
  comparison ops (l :: operands) = Ok o ->
  eval I r (o_src l) = Some (VInt x) -> Forall2 (fun p y => eval I r (o_src p) = Some (VInt y)) operands ys ->
  exists t, last_holds x ops ys = Some t /\ eval I r (o_src o) = Some (VBool t).
Proof.
  intros C EL F. destruct ops as [|op ops]; [discriminate|]. destruct operands as [|p operands]; [discriminate|].
  cbn [comparison] in C. ok C e E. inversion F as [|? y ? ys' EP F']; subst.
  destruct ops as [|op2 ops].
  - cbn in C. injection C as <-. eapply process_comparison_value in E; eauto.
  - eapply compare_chain_value in C; eauto. discriminate.
Qed.

(** If the comparisons before the last one hold, the last one decides; the chain is
    never true when the last one is false. *)
Lemma all_hold_last : forall ops x ys t, last_holds x ops ys = Some t -> length ops = length ys ->
  all_hold x ops ys = Some true -> t = true.
Proof.
  induction ops as [|op ops IH]; intros x ys t L LE A; [discriminate|]. destruct ys as [|y ys]; [discriminate|].
  cbn [all_hold] in A. destruct ops as [|op2 ops].
  - cbn [last_holds] in L. rewrite L in A. destruct t; auto. congruence.
  - cbn [last_holds] in L. destruct (py_cmp op (VInt x) (VInt y)) as [[]|]; try discriminate.
    apply (IH y ys t L); [now injection LE as LE|exact A].
Qed.
Lemma all_hold_prefix : forall ops x ys op y t,
  all_hold x ops ys = Some true -> last_holds x (ops ++ [op]) (ys ++ [y]) = Some t ->
  all_hold x (ops ++ [op]) (ys ++ [y]) = Some t.
Proof.
  induction ops as [|op1 ops IH]; intros x [|y1 ys] op y t A L; try discriminate.
  - cbn [last_holds all_hold app] in *. rewrite L. now destruct t.
  - cbn [all_hold] in A. cbn [app all_hold]. destruct (py_cmp op1 (VInt x) (VInt y1)) as [[]|]; try discriminate.
    apply IH; auto. destruct ops; exact L.
Qed.
