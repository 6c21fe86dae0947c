(** Proofs about the IR transformations (lemmas used by Properties_IR.v). *)

From Coq Require Import String List ZArith Bool Lia.
From Verif Require Import Ast Semantics Dict IrModel.
Import ListNotations.
Local Open Scope string_scope.
Local Open Scope list_scope.
Set Implicit Arguments.

(* ------------------------------------------------------------------ *)
(** * Equality *)

Lemma list_eqb_refl A (eqb : A -> A -> bool) l :
  Forall (fun a => eqb a a = true) l -> list_eqb eqb l l = true.
Proof. induction 1; simpl; auto. now rewrite H, IHForall. Qed.

Lemma list_eqb_sym A (eqb : A -> A -> bool) l :
  Forall (fun a => forall b, eqb a b = eqb b a) l ->
  forall l', list_eqb eqb l l' = list_eqb eqb l' l.
Proof.
  induction 1; destruct l'; simpl; auto. now rewrite H, IHForall.
Qed.

Lemma list_eqb_trans A (eqb : A -> A -> bool) l :
  Forall (fun a => forall b c, eqb a b = true -> eqb b c = true -> eqb a c = true) l ->
  forall l' l'', list_eqb eqb l l' = true -> list_eqb eqb l' l'' = true ->
  list_eqb eqb l l'' = true.
Proof.
  induction 1; destruct l', l''; simpl; auto; try discriminate.
  rewrite !andb_true_iff. intros [] []; split; eauto.
Qed.

Lemma list_eqb_eq A (eqb : A -> A -> bool) l :
  Forall (fun a => forall b, eqb a b = true <-> a = b) l ->
  forall l', list_eqb eqb l l' = true <-> l = l'.
Proof.
  induction 1; destruct l'; simpl; split; try congruence; auto.
  - rewrite andb_true_iff, H, IHForall. intros []; congruence.
  - intros E; injection E as -> ->. rewrite andb_true_iff, H, IHForall. auto.
Qed.

Lemma ty_eqb_eq a : forall b, ty_eqb a b = true <-> a = b.
Proof.
  induction a using ty_ind'; destruct b; simpl; try (split; congruence);
    try (rewrite IHa; split; congruence);
    try (rewrite list_eqb_eq by assumption; split; congruence).
Qed.

Lemma ty_eqb_refl t : ty_eqb t t = true.
Proof. now apply ty_eqb_eq. Qed.

Lemma kind_eqb_eq a b : kind_eqb a b = true <-> a = b.
Proof. split; [ destruct a, b; simpl; congruence | intros ->; destruct b; reflexivity ]. Qed.

Lemma kind_eqb_refl a : kind_eqb a a = true.
Proof. now apply kind_eqb_eq. Qed.

Lemma atom_eqb_refl a : atom_eqb a a = true.
Proof.
  destruct a; simpl; auto using String.eqb_refl, Z.eqb_refl, Bool.eqb_reflx.
Qed.

Lemma atom_eqb_sym a b : atom_eqb a b = atom_eqb b a.
Proof.
  destruct a, b; simpl; auto using String.eqb_sym, Z.eqb_sym.
  destruct b, b0; reflexivity.
Qed.

Lemma atom_eqb_trans a b c :
  atom_eqb a b = true -> atom_eqb b c = true -> atom_eqb a c = true.
Proof.
  destruct a, b, c; simpl; try discriminate; auto;
    rewrite ?String.eqb_eq, ?Z.eqb_eq, ?Bool.eqb_true_iff; intros; subst; auto;
    try (destruct b; simpl in *; lia); try (destruct b, b0; simpl in *; congruence).
Qed.

Lemma expr_eqb_refl e : expr_eqb e e = true.
Proof.
  induction e using expr_ind'; simpl.
  - apply atom_eqb_refl.
  - now rewrite kind_eqb_refl, list_eqb_refl.
Qed.

Lemma kind_eqb_sym a b : kind_eqb a b = kind_eqb b a.
Proof. destruct a, b; reflexivity. Qed.

Lemma expr_eqb_sym e1 : forall e2, expr_eqb e1 e2 = expr_eqb e2 e1.
Proof.
  induction e1 using expr_ind'; destruct e2; simpl; auto using atom_eqb_sym.
  rewrite kind_eqb_sym, (list_eqb_sym _ H args0). reflexivity.
Qed.

Lemma expr_eqb_trans e1 : forall e2 e3,
  expr_eqb e1 e2 = true -> expr_eqb e2 e3 = true -> expr_eqb e1 e3 = true.
Proof.
  induction e1 using expr_ind'; destruct e2, e3; simpl; try discriminate.
  - apply atom_eqb_trans.
  - rewrite !andb_true_iff, !kind_eqb_eq. intros [] []; subst. split; auto.
    eapply list_eqb_trans; eauto.
Qed.

(* ------------------------------------------------------------------ *)
(** * Rebuilding well-formed nodes *)

(** [b] may replace [a] as a constructor argument *)
Definition arg_ok (a b : expr) : Prop :=
  match a, b with
  | Atom x, Atom y => x = y
  | Node _ t _, Node _ t' _ => t = t' /\ wf b
  | _, _ => False
  end.

Lemma arg_ok_type a b : arg_ok a b -> type_of a = type_of b.
Proof. destruct a, b; simpl; try tauto. intros [-> _]; reflexivity. Qed.

Lemma arg_ok_wf a b : wf a -> arg_ok a b -> wf b.
Proof.
  intros W. destruct a, b; simpl; try tauto.
  intros ->. assumption.
Qed.

Lemma Forall2_types l l' : Forall2 arg_ok l l' ->
  Forall2 (fun a b => type_of a = type_of b) l l'.
Proof. induction 1; constructor; auto using arg_ok_type. Qed.

Lemma check_types_rel t l l' : Forall2 (fun a b => type_of a = type_of b) l l' ->
  check_types t l = check_types t l'.
Proof.
  induction 1; simpl; auto. rewrite H. destruct (type_of y); simpl; auto.
  destruct (ty_eqb a t); auto.
Qed.

Lemma mapR_type_rel l l' : Forall2 (fun a b => type_of a = type_of b) l l' ->
  mapR type_of l = mapR type_of l'.
Proof. induction 1; simpl; auto. now rewrite H, IHForall2. Qed.

Lemma Forall2_wf l l' : Forall wf l -> Forall2 arg_ok l l' -> Forall wf l'.
Proof.
  intros W H; induction H; auto. inversion W; subst. constructor; eauto using arg_ok_wf.
Qed.

Ltac inv H := inversion H; subst; clear H.

Ltac res_step :=
  match goal with
  | H : bindR ?m _ = Ok _ |- _ =>
      let E := fresh "E" in destruct m eqn:E; cbn [bindR] in H; [|discriminate H]
  | H : (if ?b then _ else _) = Ok _ |- _ =>
      let E := fresh "E" in destruct b eqn:E; try discriminate H
  | H : Ok _ = Ok _ |- _ => inv H
  | H : Err _ = Ok _ |- _ => discriminate H
  end.

Lemma rebuild_wf k t args args' :
  wf (Node k t args) -> Forall2 arg_ok args args' ->
  rebuild k t args' = Ok (Node k t args') /\ wf (Node k t args').
Proof.
  intros W F.
  pose proof (Forall2_types F) as FT.
  inversion W; subst; clear W.
  - (* Var *)
    inv F. destruct y; simpl in H1; try tauto; subst. inv H3.
    split; [reflexivity | constructor].
  - (* Lit *)
    inv F. destruct y; simpl in H1; try tauto; subst. inv H3.
    split; [reflexivity | constructor].
  - (* ArithN *)
    unfold mkArithN in H1. destruct args0 as [|a0 r0]; try discriminate.
    repeat res_step.
    assert (E' : mkArithN k args' = Ok (Node k TInt args')).
    { inversion F; subst. unfold mkArithN. rewrite <- (arg_ok_type _ _ H3), E. cbn [bindR].
      rewrite <- (check_types_rel a FT), E0. reflexivity. }
    split.
    + simpl in H. destruct H as [<-|[<-|[]]]; simpl; exact E'.
    + eapply wf_ArithN; [exact H | eapply Forall2_wf; eassumption | exact E'].
  - (* Arith2 *)
    unfold mkArith2 in H1. destruct args0 as [|a0 [|b0 [|]]]; try discriminate.
    repeat res_step.
    assert (E' : mkArith2 k args' = Ok (Node k TInt args')).
    { inversion F; subst. inversion H5; subst. inversion H7; subst. unfold mkArith2.
      rewrite <- (arg_ok_type _ _ H3), E. cbn [bindR].
      rewrite <- (check_types_rel a FT), E0. reflexivity. }
    split.
    + simpl in H. destruct H as [<-|[<-|[<-|[]]]]; simpl; exact E'.
    + eapply wf_Arith2; [exact H | eapply Forall2_wf; eassumption | exact E'].
  - (* Eq *)
    unfold mkEq in H0. destruct args0 as [|a0 [|b0 [|]]]; try discriminate. inv H0.
    inversion F; subst. inversion H4; subst. inversion H6; subst.
    split; [reflexivity|]. eapply wf_Eq; [eapply Forall2_wf; eauto | reflexivity].
  - (* Cmp *)
    unfold mkCmp in H1. destruct args0 as [|a0 [|b0 [|]]]; try discriminate.
    repeat res_step.
    assert (E' : mkCmp k args' = Ok (Node k TBool args')).
    { inversion F; subst. inversion H5; subst. inversion H7; subst. unfold mkCmp.
      rewrite <- (arg_ok_type _ _ H3), <- (arg_ok_type _ _ H4), E, E0. simpl. now rewrite E1. }
    split.
    + simpl in H. destruct H as [<-|[<-|[<-|[<-|[]]]]]; simpl; exact E'.
    + eapply wf_Cmp; [exact H | eapply Forall2_wf; eassumption | exact E'].
  - (* BoolN *)
    unfold mkBoolN in H1. destruct args0 as [|a0 r0]; try discriminate.
    repeat res_step.
    assert (E' : mkBoolN k args' = Ok (Node k TBool args')).
    { inversion F; subst. unfold mkBoolN.
      rewrite <- (check_types_rel TBool FT), E. reflexivity. }
    split.
    + simpl in H. destruct H as [<-|[<-|[]]]; simpl; exact E'.
    + eapply wf_BoolN; [exact H | eapply Forall2_wf; eassumption | exact E'].
  - (* Not *)
    unfold mkNot in H0. destruct args0 as [|a0 [|]]; try discriminate.
    repeat res_step. inversion F; subst. inversion H4; subst.
    assert (E' : mkNot [y] = Ok (Node KNot TBool [y])).
    { unfold mkNot. rewrite <- (check_types_rel TBool FT), E. reflexivity. }
    split; [exact E' | eapply wf_Not; [eapply Forall2_wf; eassumption | exact E']].
  - (* Implies *)
    unfold mkImplies in H0. destruct args0 as [|a0 [|b0 [|]]]; try discriminate.
    repeat res_step. inversion F; subst. inversion H4; subst. inversion H6; subst.
    assert (E' : mkImplies [y; y0] = Ok (Node KImplies TBool [y; y0])).
    { unfold mkImplies. rewrite <- (check_types_rel TBool FT), E. reflexivity. }
    split; [exact E' | eapply wf_Implies; [eapply Forall2_wf; eassumption | exact E']].
  - (* Ite *)
    unfold mkIte in H0. destruct args0 as [|a0 [|b0 [|c0 [|]]]]; try discriminate.
    repeat res_step. inversion F; subst. inversion H4; subst. inversion H6; subst.
    inversion H8; subst.
    assert (E' : mkIte [y; y0; y1] = Ok (Node KIte t [y; y0; y1])).
    { unfold mkIte. rewrite <- (arg_ok_type _ _ H2), <- (arg_ok_type _ _ H3), <- (arg_ok_type _ _ H5), E.
      cbn [bindR]. rewrite E0, E1. cbn [bindR]. rewrite E2. cbn [bindR]. now rewrite E3. }
    split; [exact E' | eapply wf_Ite; [eapply Forall2_wf; eassumption | exact E']].
  - (* Let *)
    unfold mkLet in H0. destruct args0 as [|a0 [|b0 [|c0 [|]]]]; try discriminate.
    repeat res_step. inversion F; subst. inversion H4; subst. inversion H6; subst.
    inversion H8; subst.
    assert (E' : mkLet [y; y0; y1] = Ok (Node KLet t [y; y0; y1])).
    { unfold mkLet. rewrite <- (arg_ok_type _ _ H5), E. reflexivity. }
    split; [exact E' | eapply wf_Let; [eapply Forall2_wf; eassumption | exact E']].
  - (* Call *)
    inv H0. inversion F; subst. destruct y; simpl in H2; try tauto. subst.
    split; [reflexivity | eapply wf_Call; [eapply Forall2_wf; eauto | reflexivity]].
  - (* CallValue *)
    unfold mkCallValue in H0. destruct args0 as [|a0 r0]; try discriminate.
    repeat res_step. destruct a; try discriminate. destruct ts; try discriminate. inv H0.
    assert (E' : mkCallValue args' = Ok (Node KCallValue t args')).
    { inversion F; subst. unfold mkCallValue. rewrite <- (arg_ok_type _ _ H2), E. reflexivity. }
    split; [exact E' | eapply wf_CallValue; [eapply Forall2_wf; eassumption | exact E']].
  - (* TupleExpr *)
    unfold mkTupleExpr in H0. repeat res_step.
    assert (E' : mkTupleExpr args' = Ok (Node KTupleExpr (TTuple a) args')).
    { unfold mkTupleExpr. now rewrite <- (mapR_type_rel FT), E. }
    split; [exact E' | eapply wf_TupleExpr; [eapply Forall2_wf; eassumption | exact E']].
  - (* Axiom *)
    unfold mkAxiom in H0. destruct args0 as [|a0 r0]; try discriminate. inv H0.
    assert (E' : mkAxiom args' = Ok (Node KAxiom TBool args')).
    { inversion F; subst. reflexivity. }
    split; [exact E' | eapply wf_Axiom; [eapply Forall2_wf; eassumption | exact E']].
  - (* Choose *)
    unfold mkChoose in H0. destruct args0 as [|a0 r0]; try discriminate.
    repeat res_step.
    assert (E' : mkChoose args' = Ok (Node KChoose t args')).
    { inversion F; subst. unfold mkChoose. rewrite <- (arg_ok_type _ _ H2), E. cbn [bindR].
      now rewrite <- (check_types_rel t FT), E0. }
    split; [exact E' | eapply wf_Choose; [eapply Forall2_wf; eassumption | exact E']].
  - (* Fn *)
    unfold mkFn in H2. repeat res_step.
    inversion F as [|? y ? l' A1 A2]; subst. destruct y; simpl in A1; try tauto. subst.
    inversion A2 as [|? y ? l'' A3 A4]; subst.
    pose proof (Forall2_types A4) as FT2.
    assert (E' : mkFn k (Atom (PStr f)) r y l'' = Ok (Node k (TFn (r :: a)) (Atom (PStr f) :: y :: l''))).
    { unfold mkFn. now rewrite <- (mapR_type_rel FT2), E. }
    split.
    + simpl in H. destruct H as [<-|[<-|[]]]; simpl; exact E'.
    + eapply wf_Fn; [exact H | | eapply Forall2_wf; eauto | exact E'].
      destruct H0 as [B|[B|[s B]]]; subst.
      * left; eapply arg_ok_wf; eauto.
      * right; left. destruct y; simpl in A3; try tauto. subst; reflexivity.
      * right; right; exists s. destruct y; simpl in A3; try tauto. subst; reflexivity.
Qed.

(** the arguments of a constructible node are constructible or plain objects *)
Definition wf_arg (e : expr) : Prop := wf e \/ exists a, e = Atom a.

Lemma wf_not_atom a : ~ wf (Atom a).
Proof.
  intros W. inversion W; subst;
    unfold mkArithN, mkArith2, mkEq, mkCmp, mkBoolN, mkNot, mkImplies, mkIte, mkLet,
      mkCall, mkCallValue, mkTupleExpr, mkAxiom, mkChoose, mkFn in *;
    repeat match goal with
      | H : context [match ?l with _ => _ end] |- _ => destruct l; simpl in H; try discriminate H
      | H : bindR ?m _ = Ok _ |- _ => destruct m; simpl in H; try discriminate H
      end; try discriminate.
Qed.

Lemma wf_args k t args : wf (Node k t args) -> Forall wf_arg args.
Proof.
  intros W. inversion W; subst; clear W;
    try (constructor; [right; eexists; reflexivity | constructor]; fail);
    try match goal with
        | F : Forall wf ?l |- Forall wf_arg ?l' =>
            assert (Forall wf_arg l) by (eapply Forall_impl; [|exact F]; intros; now left)
        end;
    try solve [ unfold mkArithN, mkArith2, mkEq, mkCmp, mkBoolN, mkNot, mkImplies, mkIte, mkLet,
      mkCallValue, mkTupleExpr, mkAxiom, mkChoose in *;
    repeat match goal with
      | H : context [match ?l with _ => _ end] |- _ => destruct l; simpl in H; try discriminate H
      | H : bindR ?m _ = Ok _ |- _ => destruct m; simpl in H; try discriminate H
      end; match goal with H : Ok _ = Ok _ |- _ => inv H end; assumption ].
  - match goal with H : mkCall _ _ _ = Ok _ |- _ => inv H end.
    constructor; auto. right; eexists; reflexivity.
  - unfold mkFn in *. repeat res_step. constructor; [right; eexists; reflexivity|].
    constructor; auto.
    match goal with H : wf _ \/ _ |- _ => destruct H as [B|[B|[s B]]] end;
      subst; [left; auto | right; eexists; reflexivity ..].
Qed.

Lemma mapR_ok_inv A B (f : A -> res B) l l' :
  mapR f l = Ok l' -> Forall2 (fun a b => f a = Ok b) l l'.
Proof.
  revert l'. induction l; simpl; intros l' H; repeat res_step; constructor; auto.
Qed.

Lemma mapR_ok A B (f : A -> res B) (P : A -> B -> Prop) l :
  Forall (fun a => exists b, f a = Ok b /\ P a b) l ->
  exists l', mapR f l = Ok l' /\ Forall2 P l l'.
Proof.
  induction 1; simpl; [eexists; split; eauto|].
  destruct H as (b & -> & ?). destruct IHForall as (bs & -> & ?).
  simpl. eexists; split; eauto.
Qed.

(** general lemma: mapping a type-preserving function over a constructible node *)
Lemma map_args_wf f k t args :
  wf (Node k t args) ->
  (forall a, f (Atom a) = Ok (Atom a)) ->
  Forall (fun a => wf a -> exists b, f a = Ok b /\ wf b /\ type_of b = type_of a) args ->
  exists args', mapR f args = Ok args' /\ Forall2 arg_ok args args' /\
    rebuild k t args' = Ok (Node k t args') /\ wf (Node k t args').
Proof.
  intros W HA HF.
  pose proof (wf_args W) as WA.
  assert (HX : Forall (fun a => exists b, f a = Ok b /\ arg_ok a b) args).
  { rewrite Forall_forall in *. intros a Ha.
    destruct (WA a Ha) as [Wa|[x ->]].
    - destruct (HF a Ha Wa) as (b & Fb & Wb & Tb). exists b. split; auto.
      destruct a; [now apply wf_not_atom in Wa|].
      destruct b; [now apply wf_not_atom in Wb|]. simpl in *.
      injection Tb as ->. auto.
    - exists (Atom x). split; simpl; auto. }
  destruct (mapR_ok _ arg_ok HX) as (args' & M & F2).
  exists args'. repeat split; auto; eapply rebuild_wf; eauto.
Qed.

Lemma wf_atom_node e : wf e -> exists k t args, e = Node k t args.
Proof. destruct e; [intros H; now apply wf_not_atom in H | eauto]. Qed.

Lemma map_args_id e : wf e ->
  map_args (fun a => Ok a) e = Ok e.
Proof.
  intros W. destruct (wf_atom_node W) as (k & t & args & ->). simpl.
  assert (M : mapR (fun a => Ok a) args = Ok args).
  { clear. induction args; simpl; auto. now rewrite IHargs. }
  rewrite M. simpl.
  apply (@rebuild_wf k t args args W).
  pose proof (wf_args W). clear -H. induction H; constructor; auto.
  destruct H as [Wx|[y ->]]; [|reflexivity].
  destruct (wf_atom_node Wx) as (k & t & args & ->). simpl; auto.
Qed.
