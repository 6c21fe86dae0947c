(** Proofs about the Python frontend, part 1: values of the generated
    expressions. *)

From Coq Require Import String List ZArith Bool Lia.
From Verif Require Import Ast Semantics Dict IrProofs IrProofs3 IrProofs6 UtilModel UtilProofs ObjModel PyModel PySem.
Import ListNotations.
Local Open Scope Z_scope.
Local Open Scope string_scope.
Local Open Scope list_scope.

(** ** Variables of an expression *)

Fixpoint fv (e : expr) : list string :=
  match e with
  | Atom _ => []
  | Node k _ args =>
      match k, args with
      | (KVar | KNonTerm), [Atom (PStr x)] => [x]
      | _, _ => flat_map fv args
      end
  end.

Lemma mapO_ext A B (f g : A -> option B) l : (forall a, In a l -> f a = g a) -> mapO f l = mapO g l.
Proof.
  induction l as [|a l IH]; intros H; [reflexivity|]. simpl. rewrite (H a) by (left; auto).
  rewrite IH by (intros; apply H; right; auto). reflexivity.
Qed.

Lemma eval_agree I e : forall r r', (forall x, In x (fv e) -> r x = r' x) -> eval I r e = eval I r' e.
Proof.
  induction e as [a|k t args IH] using expr_ind'; intros r r' H; [reflexivity|].
  rewrite Forall_forall in IH.
  assert (SUB : forall l, flat_map fv args = l -> (forall x, In x l -> r x = r' x) ->
          forall a, In a args -> eval I r a = eval I r' a).
  { intros l E H' a IN. apply IH; auto. intros x INx. apply H'. subst. apply in_flat_map. eauto. }
  destruct k; try (cbn [eval]; rewrite (mapO_ext _ _ (eval I r) (eval I r') args);
                   [reflexivity | apply (SUB _ eq_refl); exact H]).
  - simpl in *. destruct args as [|[[x|z|b|]|] [|]]; try reflexivity. apply H. left; auto.
  - simpl in *. destruct args as [|[[x|z|b|]|] [|]]; try reflexivity. apply H. left; auto.
  - reflexivity.
  - cbn [eval]. destruct args as [|c [|a [|b [|]]]]; try reflexivity. cbn [fv flat_map] in H.
    rewrite (IH c (or_introl eq_refl) r r') by (intros; apply H; simpl; rewrite in_app_iff; auto).
    rewrite (IH a (or_intror (or_introl eq_refl)) r r') by (intros; apply H; simpl; rewrite !in_app_iff; auto).
    rewrite (IH b (or_intror (or_intror (or_introl eq_refl))) r r') by (intros; apply H; simpl; rewrite !in_app_iff; auto).
    reflexivity.
  - cbn [eval]. destruct args as [|v [|a [|b [|]]]]; auto; try (destruct v as [|[] ? [|[[]|] []]]; auto; fail).
    cbn [fv flat_map] in H. rewrite !app_nil_r in H.
    assert (Ea : eval I r a = eval I r' a).
    { apply (IH a (or_intror (or_introl eq_refl))). intros; apply H; rewrite !in_app_iff; auto. }
    rewrite Ea. destruct v as [|[] ? [|[[x|?|?|]|] []]]; try reflexivity.
    destruct (eval I r' a); [|reflexivity].
    apply (IH b (or_intror (or_intror (or_introl eq_refl)))). intros y IN. unfold upd.
    destruct (String.eqb x y); auto. apply H. rewrite !in_app_iff; auto.
  - cbn [eval]. destruct args as [|[[f|?|?|]|] rest]; try reflexivity.
    rewrite (mapO_ext _ _ (eval I r) (eval I r') rest); [reflexivity|].
    intros a IN. apply (SUB _ eq_refl); [exact H | right; auto].
  - cbn [eval]. destruct args as [|[[f|?|?|]|] rest]; try reflexivity.
    rewrite (mapO_ext _ _ (eval I r) (eval I r') rest); [reflexivity|].
    intros a IN. apply (SUB _ eq_refl); [exact H | right; auto].
Qed.

(** ** Expressions whose only literals are integers *)

Fixpoint plain (e : expr) : bool :=
  match e with
  | Atom _ => true
  | Node k t args =>
      match k with
      | KLit => match t, args with TInt, [Atom (PInt _)] => true | _, _ => false end
      | _ => forallb plain args
      end
  end.

Lemma atom_eqb_z z z' : atom_eqb (PInt z) (PInt z') = true -> z = z'.
Proof. apply Z.eqb_eq. Qed.

Lemma kind_eqb_eq a b : kind_eqb a b = true -> a = b.
Proof. destruct a, b; simpl; congruence. Qed.

Lemma plain_agree e1 : forall e2, plain e1 = true -> plain e2 = true -> expr_eqb e1 e2 = true -> lits_agree e1 e2.
Proof.
  induction e1 as [a|k t args IH] using expr_ind'; intros [b|k2 t2 args2] P1 P2 E; simpl in E; try discriminate.
  - simpl. exact Logic.I.
  - apply andb_true_iff in E as [K E]. apply kind_eqb_eq in K. subst k2.
    assert (L : k <> KLit -> forallb plain args = true /\ forallb plain args2 = true).
    { intros N. destruct k; try (now split); congruence. }
    destruct (kind_eqb k KLit) eqn:KL.
    + apply kind_eqb_eq in KL. subst k. simpl in P1, P2.
      destruct t; try discriminate. destruct args as [|[[]|] []]; try discriminate.
      destruct t2; try discriminate. destruct args2 as [|[[]|] []]; try discriminate.
      simpl in E. rewrite andb_true_r in E. apply Z.eqb_eq in E. subst. simpl. auto.
    + assert (k <> KLit) as N by (intros ->; discriminate).
      destruct (L N) as [Q1 Q2].
      assert (A : all2 lits_agree args args2).
      { clear - IH E Q1 Q2. revert args2 E Q2. induction args as [|a args IHa]; intros [|b args2] E Q2; simpl in *; try discriminate; auto.
        inversion IH; subst. apply andb_true_iff in E as [E1 E2]. apply andb_true_iff in Q1 as [? ?]. apply andb_true_iff in Q2 as [? ?].
        split; auto. }
      destruct k; try congruence; simpl; auto.
Qed.

(** ** Conjunctions of objects *)

Lemma fold_exprs_conj I r es : forall e a, fold_exprs KAnd e es = Ok a -> eval I r a = Some (VBool true) ->
  eval I r e = Some (VBool true) /\ Forall (fun e => eval I r e = Some (VBool true)) es.
Proof.
  induction es as [|x es IH]; intros e a F E; cbn [fold_exprs] in F.
  - injection F as <-. auto.
  - destruct (mkBoolN KAnd [e; x]) as [n|] eqn:N; [|discriminate]. cbn [bindR] in F.
    assert (n = Node KAnd TBool [e; x]).
    { unfold mkBoolN in N. destruct (check_types TBool [e; x]); cbn [bindR] in N; congruence. }
    subst n. destruct (IH _ _ F E) as [E1 F1].
    cbn [eval mapO] in E1. destruct (eval I r e) as [[]|]; try discriminate;
      destruct (eval I r x) as [[]|] eqn:EX; try discriminate; cbn in E1; try discriminate.
    destruct b, b0; try discriminate. split; auto.
Qed.

Lemma fold_exprs_shape k es : In k [KAnd; KOr] -> forall e a, fold_exprs k e es = Ok a ->
  (plain e = true -> Forall (fun e => plain e = true) es -> plain a = true) /\
  (forall S, incl (fv e) S -> Forall (fun e => incl (fv e) S) es -> incl (fv a) S).
Proof.
  intros K. induction es as [|x es IH]; intros e a F; cbn [fold_exprs] in F.
  - injection F as <-. auto.
  - destruct (mkBoolN k [e; x]) as [n|] eqn:N; [|discriminate]. cbn [bindR] in F.
    assert (n = Node k TBool [e; x]).
    { unfold mkBoolN in N. destruct (check_types TBool [e; x]); cbn [bindR] in N; congruence. }
    subst n. destruct (IH _ _ F) as [P V]. split.
    + intros Pe Fs. inversion Fs; subst. apply P; auto.
      destruct K as [<-|[<-|[]]]; simpl; rewrite Pe; simpl; rewrite H1; reflexivity.
    + intros S Ve Fs. inversion Fs; subst. apply V; auto.
      destruct K as [<-|[<-|[]]]; simpl; rewrite app_nil_r; apply incl_app; auto.
Qed.

Lemma bool_obj e a : mkBoolObj e = Ok a -> a = e.
Proof.
  unfold mkBoolObj. destruct (type_of e); cbn [bindR]; try discriminate. destruct (ty_eqb a0 TBool); congruence.
Qed.

Lemma objects_split k os a : (e <- nary_exprs k (os_init os) ;; mkBoolObj e) = Ok a -> nary_exprs k (os_init os) = Ok a.
Proof.
  destruct (nary_exprs k (os_init os)) eqn:N; cbn [bindR]; try discriminate. intros H. apply bool_obj in H. congruence.
Qed.

(** [e]'s variables are in [S] and its literals are integers *)
Definition good (S : list string) (e : expr) : Prop := plain e = true /\ incl (fv e) S.

Lemma good_weaken S S' e : incl S S' -> good S e -> good S' e.
Proof. intros H [P V]. split; auto. eapply incl_tran; eauto. Qed.

Lemma os_init_in os x : In x (os_init os) -> In x os.
Proof. destruct (os_init_spec os) as (_ & Sb & _). now apply sublist_in. Qed.

Lemma objects_good k S os a : In k [KAnd; KOr] -> (e <- nary_exprs k (os_init os) ;; mkBoolObj e) = Ok a ->
  Forall (good S) os -> good S a.
Proof.
  intros K N F. apply objects_split in N. assert (F' : Forall (good S) (os_init os)).
  { rewrite Forall_forall in *. intros x IN. apply F. now apply os_init_in. }
  destruct (os_init os) as [|e es]; [discriminate|]. cbn [nary_exprs] in N. inversion F' as [|? ? [Pe Ve] Fs]; subst.
  destruct (fold_exprs_shape _ _ K _ _ N) as [P V]. split.
  - apply P; auto. eapply Forall_impl; [|exact Fs]. intros x [? ?]; auto.
  - apply V; auto. eapply Forall_impl; [|exact Fs]. intros x [? ?]; auto.
Qed.

Lemma objects_value I r k os a bs : In k [KAnd; KOr] -> (e <- nary_exprs k (os_init os) ;; mkBoolObj e) = Ok a ->
  Forall (fun e => plain e = true) os -> mapO (eval I r) os = Some (map VBool bs) ->
  eval I r a = Some (VBool (match k with KAnd => forallb (fun x => x) bs | _ => existsb (fun x => x) bs end)).
Proof.
  intros K N F M. apply objects_split in N. destruct (os_init_spec os) as (D & Sb & C).
  assert (SUB : forall x, In x (os_init os) -> In x os) by (intros x; now apply sublist_in).
  destruct (mapO_sub I r os bs (os_init os) M SUB) as (bs' & M').
  rewrite (nary_eval I r k (os_init os) a bs' K N M').
  destruct (forallb_incl bs bs') as [E1 E2].
  - intros b IN. destruct (mapO_bools_in I r _ _ M' b IN) as (x & INx & Ex).
    destruct (mapO_bools I r os bs M x (SUB x INx)) as (b' & Eb & INb). congruence.
  - intros b IN. destruct (mapO_bools_in I r _ _ M b IN) as (x & INx & Ex).
    destruct (proj1 (C x)) as (y & INy & Ey); [exists x; split; auto; apply expr_eqb_refl|].
    destruct (mapO_bools I r _ bs' M' y INy) as (b' & Eb & INb).
    rewrite Forall_forall in F.
    rewrite (equal_same_value I y x r Ey (plain_agree y x (F y (SUB y INy)) (F x INx) Ey)) in Eb. congruence.
  - now rewrite E1, E2.
Qed.

Lemma mapO_true I r es : Forall (fun e => eval I r e = Some (VBool true)) es ->
  exists bs, mapO (eval I r) es = Some (map VBool bs) /\ forallb (fun x => x) bs = true.
Proof.
  induction 1 as [|e es E F (bs & M & A)]; [exists []; auto|]. exists (true :: bs). cbn [mapO]. rewrite E, M. auto.
Qed.

Lemma and_true I r os a : and_objects os = Ok a -> Forall (fun e => plain e = true) os ->
  Forall (fun e => eval I r e = Some (VBool true)) os -> eval I r a = Some (VBool true).
Proof.
  intros N P F. destruct (mapO_true I r _ F) as (bs & M & A).
  rewrite (objects_value I r KAnd _ _ _ (or_introl eq_refl) N P M). now rewrite A.
Qed.

Lemma and_conj I r os a : and_objects os = Ok a -> Forall (fun e => plain e = true) os ->
  eval I r a = Some (VBool true) -> Forall (fun e => eval I r e = Some (VBool true)) os.
Proof.
  intros N P E. apply objects_split in N. destruct (os_init_spec os) as (D & Sb & C).
  assert (F : Forall (fun e => eval I r e = Some (VBool true)) (os_init os)).
  { destruct (os_init os) as [|e es]; [discriminate|]. destruct (fold_exprs_conj I r _ _ _ N E); auto. }
  rewrite Forall_forall in *. intros x IN.
  destruct (proj1 (C x)) as (y & INy & Ey); [exists x; split; auto; apply expr_eqb_refl|].
  rewrite <- (equal_same_value I y x r Ey (plain_agree y x (P y (os_init_in _ _ INy)) (P x IN) Ey)). auto.
Qed.
