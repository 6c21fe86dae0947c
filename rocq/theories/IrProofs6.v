(** Subclasses, replacement inside a context, and concrete witnesses used by
    [Properties_IR]. *)

From Coq Require Import String List ZArith Bool Lia.
From Verif Require Import Ast Semantics Dict IrModel IrProofs IrProofs2 IrProofs3 IrProofs4 IrProofs5.
Import ListNotations.
Local Open Scope string_scope.
Local Open Scope list_scope.

(* ------------------------------------------------------------------ *)
(** * Equality as a relation *)

(** same class, same number of arguments, arguments pairwise equal *)
Inductive py_equal : expr -> expr -> Prop :=
| pe_atom a b : atom_eqb a b = true -> py_equal (Atom a) (Atom b)
| pe_node k t1 t2 l1 l2 : Forall2 py_equal l1 l2 -> py_equal (Node k t1 l1) (Node k t2 l2).

Lemma py_equal_iff e1 : forall e2, expr_eqb e1 e2 = true <-> py_equal e1 e2.
Proof.
  induction e1 using expr_ind'; intros e2; split; intros E.
  - destruct e2; [constructor; auto | discriminate].
  - inversion E; subst; auto.
  - destruct e2 as [|k2 t2 args2]; [discriminate|]. cbn [expr_eqb] in E.
    apply andb_true_iff in E as [E1 E2]. apply kind_eqb_eq in E1. subst. constructor.
    revert args2 E2. induction H; intros [|b args2]; simpl; try discriminate; auto.
    rewrite andb_true_iff. intros [E1 E2]. constructor; auto. now apply H.
  - inversion E as [|? ? ? ? l2 F]; subst. cbn [expr_eqb]. rewrite kind_eqb_refl. cbn [andb].
    clear E. revert l2 F. induction H; intros l2 F; inversion F; subst; auto.
    simpl. apply andb_true_iff. split; [now apply H | auto].
Qed.

(** [c'] is [c] with some occurrences of the expression [e1] replaced by [e2]
    (not inside literals, whose argument is a plain object) *)
Inductive replaced (e1 e2 : expr) : expr -> expr -> Prop :=
| rep_same c : replaced e1 e2 c c
| rep_here : replaced e1 e2 e1 e2
| rep_node k t l l' : k <> KLit -> Forall2 (replaced e1 e2) l l' ->
    replaced e1 e2 (Node k t l) (Node k t l').

Lemma all2_refl A (R : A -> A -> Prop) l : Forall (fun a => R a a) l -> all2 R l l.
Proof. induction 1; simpl; auto. Qed.

Lemma lits_agree_refl e : lits_agree e e.
Proof.
  induction e using expr_ind'; simpl; auto.
  apply all2_refl in H. destruct k; simpl; auto.
Qed.

Lemma replaced_agree e1 e2 : expr_eqb e1 e2 = true -> lits_agree e1 e2 ->
  forall c c', replaced e1 e2 c c' -> expr_eqb c c' = true /\ lits_agree c c'.
Proof.
  intros E L. induction c using expr_ind'; intros c' R; inversion R; subst; auto using expr_eqb_refl, lits_agree_refl.
  assert (X : list_eqb expr_eqb args l' = true /\ all2 lits_agree args l').
  { match goal with F : Forall2 _ args l' |- _ => clear -H F; revert l' F end.
    induction H; intros l' F; inversion F; subst; simpl; auto.
    destruct (H _ H3) as [-> ?]. destruct (IHForall _ H5) as [-> ?]. auto. }
  destruct X as [X1 X2]. cbn [expr_eqb]. rewrite kind_eqb_refl, X1. split; auto.
  destruct k; simpl; auto. congruence.
Qed.

Theorem equal_interchangeable I e1 e2 : expr_eqb e1 e2 = true -> lits_agree e1 e2 ->
  forall c c', replaced e1 e2 c c' -> forall r, eval I r c = eval I r c'.
Proof.
  intros E L c c' R r. destruct (replaced_agree e1 e2 E L c c' R).
  now apply equal_same_value.
Qed.

(* ------------------------------------------------------------------ *)
(** * Subclasses *)

Definition base_kind (k : kind) : kind :=
  match k with KNonTerm => KVar | KTargetCall => KCall | KTarget => KFnDecl | _ => k end.

(** the same tree with [NonTerm], [TargetCall], [Target] replaced by their base
    classes [Var], [Call], [FnDecl] *)
Fixpoint base_of (e : expr) : expr :=
  match e with
  | Atom a => Atom a
  | Node k t args => Node (base_kind k) t (map base_of args)
  end.

(** everything the constructors can build, subclasses included, and [map_args]
    supports *)
Definition constructible (e : expr) : Prop := wf (base_of e).

Lemma mapO_map A B C (f : B -> option C) (g : A -> B) l : mapO f (map g l) = mapO (fun a => f (g a)) l.
Proof. induction l; simpl; auto. destruct (f (g a)); auto. now rewrite IHl. Qed.

Lemma mapO_ext A B (f g : A -> option B) l : Forall (fun a => f a = g a) l -> mapO f l = mapO g l.
Proof. induction 1; simpl; auto. now rewrite H, IHForall. Qed.

(** in a [Let], the bound name is that of a [Var]; a [NonTerm] is never bound *)
Fixpoint lets_bind_vars (e : expr) : Prop :=
  match e with
  | Atom _ => True
  | Node k _ args =>
      (k = KLet -> match args with Node KNonTerm _ _ :: _ => False | _ => True end) /\
      (fix go l := match l with [] => True | a :: r => lets_bind_vars a /\ go r end) args
  end.

Lemma base_eval I e : lets_bind_vars e -> forall r, eval I r (base_of e) = eval I r e.
Proof.
  induction e using expr_ind'; intros B r; auto.
  cbn [lets_bind_vars] in B. destruct B as [BL BA].
  assert (BA' : Forall lets_bind_vars args).
  { clear -BA. induction args; constructor; [apply BA | apply IHargs; apply BA]. }
  assert (M : forall r, mapO (eval I r) (map base_of args) = mapO (eval I r) args).
  { intros r'. rewrite mapO_map. apply mapO_ext. rewrite Forall_forall in *. auto. }
  cbn [base_of].
  destruct k; cbn [base_kind eval]; rewrite ?M; auto.
  - destruct args as [|[[]|] [|]]; auto.
  - destruct args as [|[[]|] [|]]; auto.
  - destruct args as [|[[]|] [|]]; auto.
  - destruct args as [|c [|a [|b [|]]]]; auto. simpl.
    inversion H as [|? ? Hc H1]; subst. inversion H1 as [|? ? Ha H2]; subst.
    inversion H2 as [|? ? Hb ?]; subst.
    inversion BA' as [|? ? Bc B1]; subst. inversion B1 as [|? ? Ba B2]; subst.
    inversion B2 as [|? ? Bb ?]; subst.
    rewrite Hc, Ha, Hb; auto.
  - destruct args as [|c [|a [|b [|]]]]; auto; simpl;
      try (destruct c as [|[] ? [|[[]|] [|]]]; auto; fail).
    inversion H as [|? ? Hc H1]; subst. inversion H1 as [|? ? Ha H2]; subst.
    inversion H2 as [|? ? Hb ?]; subst.
    inversion BA' as [|? ? Bc B1]; subst. inversion B1 as [|? ? Ba B2]; subst.
    inversion B2 as [|? ? Bb ?]; subst.
    specialize (BL eq_refl).
    destruct c as [|kc tc cargs]; auto. destruct kc; auto; try tauto.
    destruct cargs as [|[[]|] [|]]; auto. simpl. rewrite Ha; auto.
    destruct (eval I r a); auto.
  - destruct args as [|[[]|] rest]; auto; simpl.
    assert (M' : mapO (eval I r) (map base_of rest) = mapO (eval I r) rest).
    { rewrite mapO_map. apply mapO_ext. inversion H; subst. inversion BA'; subst. rewrite Forall_forall in *. auto. }
    now rewrite M'.
  - destruct args as [|[[]|] rest]; auto; simpl.
    assert (M' : mapO (eval I r) (map base_of rest) = mapO (eval I r) rest).
    { rewrite mapO_map. apply mapO_ext. inversion H; subst. inversion BA'; subst. rewrite Forall_forall in *. auto. }
    now rewrite M'.
Qed.

Lemma rebuild_base k t args : rebuild (base_kind k) t args = rebuild k t args.
Proof. destruct k; reflexivity. Qed.

Lemma simplify_base e : simplify (base_of e) = simplify e.
Proof.
  induction e using expr_ind'; auto. cbn [base_of simplify].
  assert (M : mapR simplify (map base_of args) = mapR simplify args).
  { clear -H. induction H; simpl; auto. now rewrite H, IHForall. }
  rewrite M. destruct (mapR simplify args); auto. cbn [bindR]. now rewrite rebuild_base.
Qed.

Lemma type_of_base e : type_of (base_of e) = type_of e.
Proof. destruct e; reflexivity. Qed.

Theorem simplify_constructible e : constructible e -> lets_bind_vars e ->
  exists e', simplify e = Ok e' /\ constructible e' /\ type_of e' = type_of e /\
    no_lit_conjunct e' /\
    (forall I r v, eval I r e = Some v -> eval I r e' = Some v).
Proof.
  intros W B. destruct (simplify_ok W) as (e' & S & W' & T & N & R & _).
  exists e'. rewrite <- simplify_base. split; auto.
  assert (BE : base_of e' = e').
  { clear -W'. induction e' using expr_ind'; auto. cbn [base_of].
    assert (BK : base_kind k = k).
    { assert (X := wf_rebuild _ _ _ W'). destruct k; auto; simpl in X.
      - destruct args as [|? [|]]; discriminate.
      - destruct args; discriminate.
      - destruct args as [|? [|]]; try discriminate. unfold mkFn in X.
        repeat match type of X with bindR ?m _ = _ => destruct m; cbn [bindR] in X; try discriminate end. }
    rewrite BK. f_equal. pose proof (wf_args W') as WA. clear -H WA.
    induction H; auto. inversion WA; subst. simpl. rewrite IHForall; auto. f_equal.
    destruct H3 as [Wx|[z ->]]; auto. }
  split; [unfold constructible; now rewrite BE|]. split; [now rewrite T, type_of_base|].
  split; auto. intros I r v E. apply R. now rewrite base_eval.
Qed.

Theorem map_args_identity_any e : constructible e -> is_expr e = true ->
  exists e', map_args (fun a => Ok a) e = Ok e' /\ type_of e' = type_of e /\ base_of e' = base_of e /\
    (forall k t args, e = Node k t args -> base_kind k = k -> e' = e).
Proof.
  intros W X. destruct e as [|k t args]; [discriminate|].
  assert (M : mapR (fun a : expr => Ok a) args = Ok args).
  { clear. induction args; simpl; auto. now rewrite IHargs. }
  cbn [map_args]. rewrite M. cbn [bindR]. rewrite <- rebuild_base.
  assert (R : rebuild (base_kind k) t args = Ok (Node (base_kind k) t args)).
  { unfold constructible in W. cbn [base_of] in W.
    assert (X1 := wf_rebuild _ _ _ W).
    assert (TY : forall l, Forall2 (fun a b => type_of a = type_of b) (map base_of l) l).
    { induction l; simpl; constructor; auto using type_of_base. }
    assert (CT : forall l t, check_types t (map base_of l) = check_types t l) by (intros; apply check_types_rel, TY).
    assert (MT : forall l, mapR type_of (map base_of l) = mapR type_of l) by (intros; apply mapR_type_rel, TY).
    clear W M X TY. revert X1. destruct k; cbn [base_kind rebuild];
      unfold mkArithN, mkArith2, mkEq, mkCmp, mkBoolN, mkNot, mkImplies, mkIte, mkLet,
        mkCall, mkCallValue, mkTupleExpr, mkAxiom, mkChoose, mkFn;
      rewrite ?MT; try (intros; discriminate);
      destruct args as [|a0 [|a1 [|a2 [|a3 rest]]]]; cbn [map];
      repeat match goal with
      | |- context [check_types ?t (base_of ?a :: base_of ?b :: base_of ?c :: base_of ?d :: map base_of ?r)] =>
          rewrite (CT (a :: b :: c :: d :: r) t : check_types t (base_of a :: base_of b :: base_of c :: base_of d :: map base_of r) = _)
      | |- context [check_types ?t [base_of ?a; base_of ?b; base_of ?c]] =>
          rewrite (CT [a; b; c] t : check_types t [base_of a; base_of b; base_of c] = _)
      | |- context [check_types ?t [base_of ?a; base_of ?b]] =>
          rewrite (CT [a; b] t : check_types t [base_of a; base_of b] = _)
      | |- context [check_types ?t [base_of ?a]] =>
          rewrite (CT [a] t : check_types t [base_of a] = _)
      | |- context [mapR type_of (base_of ?b :: base_of ?c :: map base_of ?r)] =>
          rewrite (MT (b :: c :: r) : mapR type_of (base_of b :: base_of c :: map base_of r) = _)
      | |- context [mapR type_of (base_of ?b :: map base_of ?r)] =>
          rewrite (MT (b :: r) : mapR type_of (base_of b :: map base_of r) = _)
      | |- context [mapR type_of [base_of ?b]] =>
          rewrite (MT [b] : mapR type_of [base_of b] = _)
      | |- context [type_of (base_of ?a)] => rewrite (type_of_base a)
      | |- _ -> bindR ?m _ = Ok _ => destruct m eqn:?; cbn [bindR]; [|discriminate]
      | |- bindR ?m _ = Ok _ -> _ => destruct m eqn:?; cbn [bindR]; [|discriminate]
      | |- (if ?b then _ else _) = Ok _ -> _ => destruct b; try discriminate
      | |- match ?b with _ => _ end = Ok _ -> _ => destruct b; try discriminate
      end; intros E; try (injection E; intros; subst); try congruence; reflexivity. }
  rewrite R. eexists. split; [reflexivity|]. split; [reflexivity|].
  split; [simpl; f_equal; destruct k; reflexivity|].
  intros k0 t0 args0 E K. injection E as <- <- <-. now rewrite K.
Qed.

(** all subexpressions, as a list *)
Fixpoint subs (e : expr) : list expr :=
  e :: match e with
       | Atom _ => []
       | Node _ _ args => (fix go l := match l with [] => [] | a :: r => subs a ++ go r end) args
       end.

Lemma subs_all e : forall s, subexpr s e -> In s (subs e).
Proof.
  induction e using expr_ind'; intros s S.
  - inversion S; subst. left; auto.
  - apply sub_node_inv in S as [->|(a & Ia & Sa)]; [left; auto|]. right.
    induction H; [destruct Ia|]. apply in_app_iff.
    destruct Ia as [->|Ia]; auto.
Qed.
