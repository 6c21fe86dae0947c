(** Property C07: dropping "useless" equalities (ir.py:544-583). *)

From Coq Require Import String List ZArith Bool Lia.
From Verif Require Import Ast Semantics Dict IrModel IrProofs IrProofs2 IrProofs3 IrProofs4 IrProofs5 IrProofs6
  OptProofs OptProofs2 OptProofs3 OptProofs4 OptProofs5 Properties_IR.
Import ListNotations.
Local Open Scope string_scope.
Local Open Scope list_scope.

(** Full statement (false in three ways): for every verification condition [vc],
    [optimize_vc] ends with a condition that is valid iff [vc] is. *)

(** (1) it may raise: a hypothesis with three equations for one variable. *)
Theorem C07_raises_refuted :
  exists vc, wf vc /\ forall fuel, fuel >= 10 -> exists ex, optimize_vc fuel vc [] = Err ex.
Proof.
  exists (Imp2 (Node KAnd TBool [Eq2 x_ (IntLit 1); Eq2 x_ (IntLit 2); Eq2 x_ (IntLit 3)]) (Gt2 x_ (IntLit 0))).
  split; [wf_tac|]. intros fuel L. exists ExKey.
  do 10 (destruct fuel as [|fuel]; [lia|]). vm_compute. reflexivity.
Qed.
Print Assumptions C07_raises_refuted.

(** (2) an invalid condition may become valid: an equation in the hypothesis of
    a negated implication. *)
Theorem C07_invalid_becomes_valid_refuted :
  exists vc vc' nv, wf vc /\ optimize_vc 20 vc [] = Ok (vc', nv) /\
    ~ valid I0 vc /\ valid I0 vc'.
Proof.
  exists (Not1 (Imp2 (Eq2 x_ (IntLit 1)) (BoolLit false))),
         (Not1 (Imp2 (Eq2 (IntLit 1) (IntLit 1)) (BoolLit false))), [].
  split; [wf_tac|]. split; [reflexivity|]. split.
  - intros V. apply (V (env_of [("x", VInt 0)])). reflexivity.
  - intros r. vm_compute. discriminate.
Qed.
Print Assumptions C07_invalid_becomes_valid_refuted.

(** (3) a valid condition may become invalid: the counts are taken once, before
    variables are rewritten. *)
Theorem C07_valid_becomes_invalid_refuted :
  exists vc vc' nv, wf vc /\ optimize_vc 20 vc [] = Ok (vc', nv) /\
    valid I0 vc /\ ~ valid I0 vc'.
Proof.
  set (u := fun s => mkVar ("useless_equality_" ++ s)%string TBool).
  exists (Imp2 (And2 (Eq2 x_ y_) (Gt2 x_ (IntLit 3))) (Not1 (Eq2 x_ (IntLit 0)))),
         (Imp2 (And2 (u "0") (Gt2 y_ (IntLit 3))) (Not1 (u "1"))), [u "0"; u "1"].
  split; [wf_tac|]. split; [reflexivity|]. split.
  - intros r. simpl. destruct (r "x") as [[z| | | |]|]; simpl; try discriminate;
      destruct (r "y") as [[z'| | | |]|]; simpl; try discriminate.
    destruct (Z.eqb_spec z 0) as [->|N]; simpl.
    + rewrite andb_false_r. discriminate.
    + destruct (_ && _)%bool; discriminate.
  - intros V. apply (V (env_of [("y", VInt 4); ("useless_equality_0", VBool true); ("useless_equality_1", VBool true)])).
    reflexivity.
Qed.
Print Assumptions C07_valid_becomes_invalid_refuted.

(** What holds.  [vc] is built from variables (none called
    [useless_equality_<n>]), literals, calls and operators, and implications
    occur in it only below conjunctions, disjunctions and conclusions.  Then the
    transformation ends (enough fuel exists), and whenever it returns [vc'] it
    cannot hide a counterexample: for every assignment that makes [vc] false
    there is one that differs only in the new variables, which are booleans,
    falsifies [vc'], and so does not make [vc'] true.  The result is therefore
    never valid unless [vc] is.  Missing: the other direction (false, (3)), and
    the absence of exceptions (false, (1)). *)
Theorem C07_no_counterexample_lost_partial : forall vc, plain vc -> positive vc ->
  (exists F, forall fuel, fuel >= F -> optimize_vc fuel vc [] <> Err ExFuel) /\
  forall I fuel vc' nv, optimize_vc fuel vc [] = Ok (vc', nv) ->
    nv = map (fun i => mkVar (useless_name i) TBool) (seq 0 (List.length nv)) /\
    (forall r, eval I r vc = Some (VBool false) ->
      exists r', (forall x, (forall i, x <> useless_name i) -> r' x = r x) /\
        (forall i, exists b, r' (useless_name i) = Some (VBool b)) /\
        fails I r' vc' /\ eval I r' vc' <> Some (VBool true)) /\
    (holds_always I vc' -> valid I vc).
Proof.
  intros vc P Q. split.
  - destruct (optimize_enough I0 (count_uses vc []) (inest vc) vc (le_n _) P Q) as (F & HF).
    exists F. intros fuel L. apply HF. exact L.
  - intros I fuel vc' nv O.
    destruct (optimize_sound I fuel _ vc [] vc' nv P Q eq_refl O) as (G & L & _ & REL).
    split; [exact G|].
    assert (X : forall r, eval I r vc = Some (VBool false) ->
      exists r', (forall x, (forall i, x <> useless_name i) -> r' x = r x) /\
        (forall i, exists b, r' (useless_name i) = Some (VBool b)) /\
        fails I r' vc' /\ eval I r' vc' <> Some (VBool true)).
    { intros r E. destruct (REL r) as (f & Hf).
      destruct (new_vars_env r f) as (r' & A & B).
      exists r'. split; [exact A|]. split; [intros i; exists (f i); apply B|].
      assert (FF : fails I r' vc').
      { apply (proj2 (Hf r' (conj A (fun i _ => B i)))); [exact Q | now apply f_eval]. }
      split; [exact FF|]. intros T. apply (fails_value _ _ _ FF) in T. discriminate. }
    split; [exact X|].
    intros H r E. destruct (X r E) as (r' & _ & _ & FF & _). exact (H r' FF).
Qed.
Print Assumptions C07_no_counterexample_lost_partial.

(** A condition that meets the hypotheses, with an equation of each sort: one
    propagated, one dropped. *)
Example C07_nontrivial :
  let vc := Imp2 (Eq2 x_ (Add2 y_ (IntLit 1)))
                 (Imp2 (Eq2 (IntLit 5) z_) (Imp2 (Gt2 y_ (IntLit 0)) (And2 (Gt2 x_ (IntLit 1)) (Eq2 b_ (BoolLit true))))) in
  plain vc /\ positive vc /\
  optimize_vc 20 vc [] =
   Ok (Imp2 (Eq2 (Add2 y_ (IntLit 1)) (Add2 y_ (IntLit 1)))
        (Imp2 (Eq2 (IntLit 5) (IntLit 5)) (Imp2 (Gt2 y_ (IntLit 0))
           (And2 (Gt2 (Add2 y_ (IntLit 1)) (IntLit 1)) (mkVar "useless_equality_0" TBool)))),
       [mkVar "useless_equality_0" TBool]).
Proof.
  cbn zeta. split; [|split].
  - repeat first [ apply pl_lit | apply pl_var; intros i; discriminate
                 | apply pl_op; [simpl; tauto|] | apply Forall_cons | apply Forall_nil ].
  - apply po_imp; [|apply po_imp; [|apply po_imp; [|apply po_other]]];
    repeat first [ apply if_atom | apply if_node; [discriminate|] | apply Forall_cons | apply Forall_nil ].
  - vm_compute. reflexivity.
Qed.

(** When nothing is propagated, the statement holds in full.  [vc] is well typed,
    the called functions and division are total, and what hypotheses of implications
    equate also occurs outside of the implication.  Then the transformation ends
    without an exception and the result, in the old and the new variables, is valid
    exactly when [vc] is.  Missing: conditions in which an equation is propagated. *)
Theorem C07_quiet_partial : forall F G I vc fuel, total F I -> typed F G vc TBool ->
  (forall i, G (useless_name i) = None) -> (forall x t, G x = Some t -> plural t = true) ->
  quiet vc -> fuel >= size vc ->
  exists vc' nv, optimize_vc fuel vc [] = Ok (vc', nv) /\
    nv = map (fun i => mkVar (useless_name i) TBool) (seq 0 (List.length nv)) /\
    typed F (with_new G (List.length nv)) vc' TBool /\
    (true_for_all G I vc <-> true_for_all (with_new G (List.length nv)) I vc').
Proof. intros F G I vc fuel TOT T N P Q L. now apply optimize_equivalent. Qed.
Print Assumptions C07_quiet_partial.

(** an equation in a hypothesis that is kept, and one that is dropped *)
Example C07_quiet_nontrivial :
  let vc := Node KOr TBool [Imp2 (And2 (Eq2 x_ z_) (Gt2 x_ (IntLit 3))) (Gt2 z_ (IntLit 0)); Eq2 y_ x_; Gt2 z_ (IntLit 1)] in
  let G := fun x => if smem x ["x"; "y"; "z"] then Some TInt else None in
  typed [] G vc TBool /\ (forall i, G (useless_name i) = None) /\ (forall x t, G x = Some t -> plural t = true) /\ quiet vc /\
  optimize_vc 20 vc [] =
    Ok (Node KOr TBool [Imp2 (And2 (Eq2 x_ z_) (Gt2 x_ (IntLit 3))) (Gt2 z_ (IntLit 0)); mkVar "useless_equality_0" TBool; Gt2 z_ (IntLit 1)],
        [mkVar "useless_equality_0" TBool]).
Proof.
  cbn zeta. split; [|split; [|split; [|split]]].
  - assert (OP : forall k l ts t, op_type k ts = Some t -> Forall2 (typed [] (fun x => if smem x ["x"; "y"; "z"] then Some TInt else None)) l ts ->
      typed [] (fun x => if smem x ["x"; "y"; "z"] then Some TInt else None) (Node k t l) t) by (intros; eapply ty_op; eauto).
    apply (OP _ _ [TBool; TBool; TBool]); [reflexivity|].
    repeat first [ apply ty_int | apply ty_var; reflexivity | apply Forall2_nil | apply Forall2_cons
      | apply (OP KImplies _ [TBool; TBool]); [reflexivity|] | apply (OP KAnd _ [TBool; TBool]); [reflexivity|]
      | apply (OP KEq _ [TInt; TInt]); [reflexivity|] | apply (OP KGt _ [TInt; TInt]); [reflexivity|] ].
  - reflexivity.
  - intros x t. destruct (smem x ["x"; "y"; "z"]); [intros [= <-]; reflexivity | discriminate].
  - intros t a b x S Q.
    assert (SB : forall k u l, subexpr (Node KImplies t [a; b]) (Node k u l) -> Node KImplies t [a; b] = Node k u l \/ exists c, In c l /\ subexpr (Node KImplies t [a; b]) c).
    { intros k u l H. inversion H; subst; eauto. }
    repeat match goal with
      | H : subexpr (Node KImplies t [a; b]) (Atom _) |- _ => inversion H
      | H : subexpr (Node KImplies t [a; b]) ?e |- _ => apply SB in H as [H|(c & IN & H)]; [try discriminate H | cbn [In] in IN]
      | H : _ \/ _ |- _ => destruct H as [<-|H]
      | H : False |- _ => destruct H
      end.
    unfold Imp2 in S. injection S as -> -> ->. inversion Q as [| |? ? c IN Q']; subst.
    destruct IN as [<-|[<-|[]]]; inversion Q'; subst; vm_compute; discriminate.
  - vm_compute. reflexivity.
Qed.
