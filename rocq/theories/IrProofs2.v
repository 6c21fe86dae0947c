(** Value preservation of the IR transformations. *)

From Coq Require Import String List ZArith Bool Lia.
From Verif Require Import Ast Semantics Dict IrModel IrProofs.
Import ListNotations.
Local Open Scope string_scope.
Local Open Scope list_scope.
Set Implicit Arguments.

(** [e'] has every value that [e] has *)
Definition refines (I : interp) (e e' : expr) : Prop :=
  forall r v, eval I r e = Some v -> eval I r e' = Some v.

Definition arg_ref (I : interp) (a b : expr) : Prop :=
  match a, b with
  | Atom x, Atom y => x = y
  | Node _ _ _, Node _ _ _ =>
      refines I a b /\
      match a with
      | Node KVar _ [Atom (PStr x)] => exists t, b = Node KVar t [Atom (PStr x)]
      | _ => True
      end
  | _, _ => False
  end.

Lemma refines_refl I e : refines I e e.
Proof. intros r v; auto. Qed.

Lemma refines_trans I a b c : refines I a b -> refines I b c -> refines I a c.
Proof. intros H1 H2 r v E; auto. Qed.

Lemma arg_ref_refl I e : arg_ref I e e.
Proof.
  destruct e; simpl; auto. split; [apply refines_refl|].
  destruct k; auto. destruct args as [|[[]|] [|]]; eauto.
Qed.

Lemma arg_ref_refines I a b : arg_ref I a b -> refines I a b.
Proof.
  destruct a, b; simpl; try tauto. intros ->. apply refines_refl.
Qed.

Lemma mapO_cong I r l l' vs :
  Forall2 (arg_ref I) l l' -> mapO (eval I r) l = Some vs ->
  mapO (eval I r) l' = Some vs.
Proof.
  intros F; revert vs; induction F; simpl; intros vs E; auto.
  destruct (eval I r x) eqn:Ex; try discriminate.
  rewrite (arg_ref_refines _ _ _ H r Ex).
  destruct (mapO (eval I r) l) eqn:El; try discriminate.
  now rewrite (IHF _ eq_refl).
Qed.

Lemma eval_cong I k t args args' :
  Forall2 (arg_ref I) args args' -> refines I (Node k t args) (Node k t args').
Proof.
  intros F r v.
  assert (GEN : match mapO (eval I r) args with
                | Some vs => op_val I k vs | None => None end = Some v ->
                match mapO (eval I r) args' with
                | Some vs => op_val I k vs | None => None end = Some v).
  { destruct (mapO (eval I r) args) eqn:E; try discriminate.
    now rewrite (mapO_cong r F E). }
  destruct k; try exact GEN; simpl.
  - inversion F as [|a b ? ? A F']; subst; auto.
    destruct a as [[]|], b; simpl in A; try tauto; try discriminate.
    subst. inversion F'; subst; auto; discriminate.
  - inversion F as [|a b ? ? A F']; subst; auto.
    destruct a as [[]|], b; simpl in A; try tauto; try discriminate.
    subst. inversion F'; subst; auto; discriminate.
  - inversion F as [|a b ? ? A F']; subst; auto.
    destruct a, b; simpl in A; try tauto; try discriminate.
    subst. inversion F'; subst; auto; discriminate.
  - (* Ite *)
    inversion F as [|c c' ? ? A F1]; subst; auto.
    inversion F1 as [|a a' ? ? A1 F2]; subst; auto; try discriminate.
    inversion F2 as [|b b' ? ? A2 F3]; subst; auto; try discriminate.
    inversion F3; subst; auto; try discriminate.
    destruct (eval I r c) eqn:Ec; try discriminate.
    rewrite (arg_ref_refines _ _ _ A r Ec).
    destruct v0; try discriminate.
    destruct b0; intros E; [exact (arg_ref_refines _ _ _ A1 r E) | exact (arg_ref_refines _ _ _ A2 r E)].
  - (* Let *)
    inversion F as [|c c' ? ? A F1]; subst; auto.
    inversion F1 as [|a a' ? ? A1 F2]; subst; auto; try (destruct c as [|[] ? [|[[]|] [|]]]; discriminate).
    inversion F2 as [|b b' ? ? A2 F3]; subst; auto; try (destruct c as [|[] ? [|[[]|] [|]]]; discriminate).
    inversion F3; subst; auto; try (destruct c as [|[] ? [|[[]|] [|]]]; discriminate).
    destruct c as [|kc tc ac]; try discriminate.
    destruct kc; try discriminate. destruct ac as [|[[]|] [|]]; try discriminate.
    destruct c'; simpl in A; try tauto. destruct A as [_ [t' E']].
    injection E' as -> -> ->. 
    destruct (eval I r a) eqn:Ea; try discriminate.
    rewrite (arg_ref_refines _ _ _ A1 r Ea).
    intros E; exact (arg_ref_refines _ _ _ A2 _ E).
  - (* Call *)
    inversion F as [|a b ? ? A F']; subst; auto.
    destruct a as [[]|], b; simpl in A; try tauto; try discriminate. subst.
    destruct (mapO (eval I r) l) eqn:E; try discriminate.
    now rewrite (mapO_cong r F' E).
  - (* TargetCall *)
    inversion F as [|a b ? ? A F']; subst; auto.
    destruct a as [[]|], b; simpl in A; try tauto; try discriminate. subst.
    destruct (mapO (eval I r) l) eqn:E; try discriminate.
    now rewrite (mapO_cong r F' E).
Qed.

(* ------------------------------------------------------------------ *)
(** * simplify *)

Lemma mapO_as_bool vs bs : mapO as_bool vs = Some bs <-> vs = map VBool bs.
Proof.
  revert bs; induction vs; simpl; intros bs.
  - split; [intros E; injection E as <-; auto | destruct bs; simpl; congruence].
  - split.
    + destruct a; simpl; try discriminate. destruct (mapO as_bool vs) eqn:E; try discriminate.
      intros F; injection F as <-. simpl. f_equal. now apply IHvs.
    + destruct bs; simpl; try discriminate. intros E; injection E as -> ->.
      simpl. now rewrite (proj2 (IHvs bs) eq_refl).
Qed.

Lemma eval_and_inv I r t args v :
  eval I r (Node KAnd t args) = Some v ->
  exists bs, args <> [] /\ mapO (eval I r) args = Some (map VBool bs) /\
             v = VBool (forallb (fun x => x) bs).
Proof.
  change (match mapO (eval I r) args with
          | Some vs => op_val I KAnd vs | None => None end = Some v ->
   exists bs, args <> [] /\ mapO (eval I r) args = Some (map VBool bs) /\
             v = VBool (forallb (fun x => x) bs)).
  destruct (mapO (eval I r) args) eqn:E; try discriminate. simpl.
  destruct (mapO as_bool l) eqn:B; try discriminate.
  destruct l0; try discriminate. intros F; injection F as <-.
  apply mapO_as_bool in B. exists (b :: l0). subst. repeat split; auto.
  intros ->. discriminate.
Qed.

Lemma eval_and_intro I r t args bs :
  args <> [] -> mapO (eval I r) args = Some (map VBool bs) ->
  eval I r (Node KAnd t args) = Some (VBool (forallb (fun x => x) bs)).
Proof.
  intros N E.
  change (match mapO (eval I r) args with
          | Some vs => op_val I KAnd vs | None => None end = Some (VBool (forallb (fun x => x) bs))).
  rewrite E. simpl. rewrite (proj2 (mapO_as_bool _ bs) eq_refl).
  destruct bs; auto. destruct args; try congruence. simpl in E.
  destruct (eval I r e); try discriminate. destruct (mapO (eval I r) args); discriminate.
Qed.

Lemma and_filter_none I r args bs :
  check_types TBool args = Ok tt ->
  and_filter args = None -> mapO (eval I r) args = Some (map VBool bs) ->
  forallb (fun x => x) bs = false.
Proof.
  revert bs. induction args as [|a l IH]; [simpl; discriminate|].
  intros bs C N E. cbn [mapO] in E.
  destruct (eval I r a) eqn:Ea; try discriminate.
  destruct (mapO (eval I r) l) eqn:El; try discriminate.
  destruct bs as [|b bs']; try discriminate. simpl in E. injection E as -> ->.
  cbn [check_types bindR] in C. destruct (type_of a) eqn:Ta; try discriminate.
  cbn [bindR] in C. destruct (ty_eqb a0 TBool) eqn:Tb; try discriminate.
  apply ty_eqb_eq in Tb. subst a0.
  assert (R : and_filter l = None -> forallb (fun x => x) (b :: bs') = false).
  { intros N'. simpl. rewrite (IH _ C N' eq_refl). apply andb_false_r. }
  destruct a as [|ka ta la]; [discriminate|].
  destruct ka; simpl in N; try (destruct (and_filter l); [discriminate | now apply R]).
  simpl in Ta. injection Ta as ->. destruct (lit_is_false la) eqn:Lf; [|now apply R].
  destruct la as [|[x|] [|]]; try discriminate. simpl in Ea, Lf.
  destruct x; try discriminate; simpl in *; injection Ea as <-.
  - apply Z.eqb_eq in Lf. subst. reflexivity.
  - destruct b0; [discriminate | reflexivity].
Qed.

Lemma and_filter_some I r args l bs :
  check_types TBool args = Ok tt ->
  and_filter args = Some l -> mapO (eval I r) args = Some (map VBool bs) ->
  exists bs', mapO (eval I r) l = Some (map VBool bs') /\
              forallb (fun x => x) bs' = forallb (fun x => x) bs.
Proof.
  revert bs l. induction args as [|a rest IH]; intros bs l C N E.
  - simpl in *. injection N as <-. exists bs; auto.
  - cbn [mapO] in E.
    destruct (eval I r a) eqn:Ea; try discriminate.
    destruct (mapO (eval I r) rest) eqn:El; try discriminate.
    destruct bs as [|b bs']; try discriminate. simpl in E. injection E as -> ->.
    cbn [check_types bindR] in C. destruct (type_of a) eqn:Ta; try discriminate.
    cbn [bindR] in C. destruct (ty_eqb a0 TBool) eqn:Tb; try discriminate.
    apply ty_eqb_eq in Tb. subst a0.
    assert (R : forall l', and_filter rest = Some l' -> l = a :: l' ->
       exists bs'0, mapO (eval I r) l = Some (map VBool bs'0) /\
        forallb (fun x => x) bs'0 = forallb (fun x => x) (b :: bs')).
    { intros l' N' ->. destruct (IH _ _ C N' eq_refl) as (bs2 & E2 & F2).
      exists (b :: bs2). cbn [mapO]. rewrite Ea, E2. simpl. now rewrite F2. }
    destruct a as [|ka ta la]; [discriminate|].
    destruct ka; simpl in N;
      try (destruct (and_filter rest) eqn:N'; [injection N as <-; now apply (R l0) | discriminate]).
    simpl in Ta. injection Ta as ->. destruct (lit_is_false la) eqn:Lf; [discriminate|].
    destruct (IH _ _ C N eq_refl) as (bs2 & E2 & F2). exists bs2. split; auto.
    rewrite F2. destruct la as [|[x|] [|]]; try discriminate. simpl in Ea, Lf.
    destruct x; try discriminate; simpl in *; injection Ea as <-.
    + rewrite Lf. reflexivity.
    + destruct b0; [reflexivity | discriminate].
Qed.

Lemma and_filter_incl args l : and_filter args = Some l -> incl l args.
Proof.
  revert l; induction args as [|a rest IH]; simpl; intros l E.
  - injection E as <-. apply incl_refl.
  - assert (R : forall l', and_filter rest = Some l' -> incl (a :: l') (a :: rest)).
    { intros l' E'. apply incl_cons; [left; auto|]. apply incl_tl. auto. }
    destruct a as [|[] ? la];
      try (destruct (and_filter rest) eqn:E'; [injection E as <-; auto | discriminate]).
    destruct (lit_is_false la); [discriminate|]. apply incl_tl. auto.
Qed.

Lemma and_filter_nolit args l : and_filter args = Some l -> forallb (fun a => negb (is_lit a)) l = true.
Proof.
  revert l; induction args as [|a rest IH]; simpl; intros l E.
  - injection E as <-. reflexivity.
  - destruct a as [|[] ? la];
      try (destruct (and_filter rest) eqn:E'; [injection E as <-; simpl; auto | discriminate]).
    destruct (lit_is_false la); [discriminate|]. auto.
Qed.

(** the normal form that [simplify] establishes: no conjunction anywhere in the
    expression has a literal operand *)
Inductive no_lit_conjunct : expr -> Prop :=
| nlc_atom a : no_lit_conjunct (Atom a)
| nlc_node k t args : Forall no_lit_conjunct args ->
    (k = KAnd -> Forall (fun a => is_lit a = false) args) ->
    no_lit_conjunct (Node k t args).

Definition keeps_var (a b : expr) : Prop :=
  match a with
  | Node KVar _ [Atom (PStr x)] => exists t, b = Node KVar t [Atom (PStr x)]
  | _ => True
  end.

Lemma check_types_forall t l :
  check_types t l = Ok tt <-> Forall (fun a => type_of a = Ok t) l.
Proof.
  induction l; simpl; [split; auto|].
  destruct (type_of a) eqn:E; simpl.
  - destruct (ty_eqb a0 t) eqn:T.
    + apply ty_eqb_eq in T. subst. rewrite IHl. split; [constructor; auto|].
      intros H; inversion H; auto.
    + split; [discriminate|]. intros H; inversion H; subst.
      rewrite E in H2. injection H2 as ->. now rewrite ty_eqb_refl in T.
  - split; [discriminate|]. intros H; inversion H; subst. congruence.
Qed.

Lemma wf_and_types t args : wf (Node KAnd t args) ->
  t = TBool /\ check_types TBool args = Ok tt /\ args <> [].
Proof.
  intros W. inversion W; subst; clear W;
    unfold mkArithN, mkArith2, mkEq, mkCmp, mkBoolN, mkNot, mkImplies, mkIte, mkLet,
      mkCall, mkCallValue, mkTupleExpr, mkAxiom, mkChoose, mkFn in *;
    repeat match goal with
      | H : context [match ?l with _ => _ end] |- _ => destruct l eqn:?; simpl in H; try discriminate H
      | H : bindR ?m _ = Ok _ |- _ => destruct m eqn:?; cbn [bindR] in H; try discriminate H
      end; try discriminate;
      try (match goal with H : Ok _ = Ok _ |- _ => inv H end; simpl in *; intuition congruence).
  match goal with H : Ok _ = Ok _ |- _ => inv H end.
  destruct a. simpl. rewrite Heqr0. simpl. rewrite Heqb. repeat split; auto; discriminate.
Qed.

Lemma simplify_top_ok k t args :
  wf (Node k t args) -> Forall no_lit_conjunct args ->
  exists e', simplify_top (Node k t args) = Ok e' /\ wf e' /\ type_of e' = Ok t /\
    no_lit_conjunct e' /\ (forall I, refines I (Node k t args) e') /\
    keeps_var (Node k t args) e'.
Proof.
  intros W N.
  destruct (kind_eqb k KAnd) eqn:K; [apply kind_eqb_eq in K; subst|].
  - destruct (wf_and_types W) as (-> & C & NE). cbn [simplify_top].
    pose proof (wf_args W) as WA.
    assert (C' := C). apply check_types_forall in C'.
    destruct (and_filter args) as [l|] eqn:F.
    + pose proof (and_filter_incl _ F) as IN.
      pose proof (and_filter_nolit _ F) as NL.
      assert (CL : check_types TBool l = Ok tt).
      { apply check_types_forall. rewrite Forall_forall in *. auto. }
      assert (NN : Forall no_lit_conjunct l) by (rewrite Forall_forall in *; auto).
      assert (WL : Forall wf l).
      { rewrite Forall_forall in *. intros a Ha. destruct (WA a (IN _ Ha)) as [|[x ->]]; auto.
        specialize (C' _ (IN _ Ha)). discriminate. }
      destruct l as [|a [|b l]].
      * eexists; split; [reflexivity|]. split; [constructor|]. split; [reflexivity|].
        split; [constructor; [constructor; constructor | discriminate]|].
        split; [|exact Logic.I]. intros I r v E. apply eval_and_inv in E as (bs & _ & M & ->).
        eapply and_filter_some in M as (bs' & E' & <-); [|exact C|exact F].
        simpl in E'. destruct bs'; [reflexivity | discriminate].
      * inv WL. inv NN. eexists; split; [reflexivity|]. split; [assumption|].
        split; [rewrite check_types_forall in CL; inv CL; auto|].
        split; [assumption|]. split; [|exact Logic.I].
        intros I r v E. apply eval_and_inv in E as (bs & _ & M & ->).
        eapply and_filter_some in M as (bs' & E' & <-); [|exact C|exact F].
        cbn [mapO] in E'. destruct (eval I r a); try discriminate.
        destruct bs' as [|b' [|]]; try discriminate. simpl in E'. injection E' as ->.
        simpl. now rewrite andb_true_r.
      * remember (a :: b :: l) as L.
        assert (E' : mkBoolN KAnd L = Ok (Node KAnd TBool L)).
        { unfold mkBoolN. rewrite CL. subst; reflexivity. }
        assert (LNE : L <> []) by (subst; discriminate).
        exists (Node KAnd TBool L). split.
        { subst L. exact E'. }
        split; [eapply wf_BoolN; [| exact WL | exact E']; simpl; auto|].
        split; [reflexivity|].
        split; [|split; [|exact Logic.I]].
        { constructor; auto. intros _. rewrite Forall_forall. rewrite forallb_forall in NL.
          intros y Hy. specialize (NL _ Hy). destruct (is_lit y); auto; discriminate. }
        intros I r v E. apply eval_and_inv in E as (bs & _ & M & ->).
        eapply and_filter_some in M as (bs' & E2 & <-); [|exact C|exact F].
        now apply eval_and_intro.
    + eexists; split; [reflexivity|].
      split; [constructor|]. split; [reflexivity|].
      split; [constructor; [constructor; constructor | discriminate]|].
      split; [|exact Logic.I]. intros I r v E. apply eval_and_inv in E as (bs & _ & M & ->).
      eapply and_filter_none in M; [|exact C|exact F]. now rewrite M.
  - exists (Node k t args). split; [destruct k; (reflexivity || discriminate)|].
    split; [assumption|]. split; [reflexivity|].
    split; [constructor; auto; intros ->; discriminate|].
    split; [intros; apply refines_refl|].
    simpl. destruct k; auto. destruct args as [|[[]|] [|]]; eauto.
Qed.

Theorem simplify_ok e : wf e ->
  exists e', simplify e = Ok e' /\ wf e' /\ type_of e' = type_of e /\
    no_lit_conjunct e' /\ (forall I, refines I e e') /\ keeps_var e e'.
Proof.
  induction e using expr_ind'; intros W; [now apply wf_not_atom in W|].
  assert (HF : Forall (fun a => wf a ->
     exists b, simplify a = Ok b /\ wf b /\ type_of b = type_of a) args).
  { eapply Forall_impl; [|exact H]. intros a Ha Wa.
    destruct (Ha Wa) as (b & ? & ? & ? & _). eauto. }
  destruct (@map_args_wf simplify k t args W (fun a => eq_refl) HF)
    as (args' & M & A & R & W').
  cbn [simplify]. rewrite M. cbn [bindR]. rewrite R. cbn [bindR].
  assert (X : Forall no_lit_conjunct args' /\ forall I, Forall2 (arg_ref I) args args').
  { pose proof (mapR_ok_inv _ _ M) as F2. pose proof (wf_args W) as WA.
    clear -H F2 WA. induction F2; [split; constructor|].
    inversion H; subst. inversion WA; subst. destruct (IHF2 H4 H6) as [IH1 IH2].
    destruct H5 as [Wx|[z ->]].
    - destruct (H3 Wx) as (b & Eb & Wb & Tb & Nb & Rb & Kb).
      rewrite Eb in H0. injection H0 as ->.
      split; [constructor; auto|]. intros I; constructor; auto.
      destruct x; [now apply wf_not_atom in Wx|]. destruct y; [now apply wf_not_atom in Wb|].
      split; [apply Rb | exact Kb].
    - simpl in H0. injection H0 as <-. split; [constructor; auto; constructor|].
      intros I; constructor; simpl; auto. }
  destruct X as [X1 X2].
  destruct (simplify_top_ok W' X1) as (e' & S1 & S2 & S3 & S4 & S5 & S6).
  exists e'. split; [assumption|]. split; [assumption|]. split; [assumption|].
  split; [assumption|]. split.
  - intros I. eapply refines_trans; [apply eval_cong; apply X2 | apply S5].
  - destruct k; simpl; auto. destruct args as [|[[]|] [|]]; auto.
    simpl in M. injection M as <-. exact S6.
Qed.
