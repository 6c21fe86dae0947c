(** Interchangeability, rewriting, counting, arbitrary choice, used names. *)

From Coq Require Import String List ZArith Bool Lia.
From Verif Require Import Ast Semantics Dict IrModel IrProofs IrProofs2.
Import ListNotations.
Local Open Scope string_scope.
Local Open Scope list_scope.
Set Implicit Arguments.

(* ------------------------------------------------------------------ *)
(** * Equal expressions *)

Section All2.
  Variables (A : Type) (R : A -> A -> Prop).
  Fixpoint all2 (l1 l2 : list A) : Prop :=
    match l1, l2 with
    | a :: r1, b :: r2 => R a b /\ all2 r1 r2
    | _, _ => True
    end.
End All2.

(** literals at the same position have the same type and, unless they are
    booleans, the same Python object *)
Fixpoint lits_agree (e1 e2 : expr) : Prop :=
  match e1, e2 with
  | Node KLit t1 args1, Node KLit t2 args2 => t1 = t2 /\ (t1 = TBool \/ args1 = args2)
  | Node _ _ args1, Node _ _ args2 => all2 lits_agree args1 args2
  | _, _ => True
  end.

Lemma eval_ext I e : forall r r', (forall x, r x = r' x) -> eval I r e = eval I r' e.
Proof.
  induction e using expr_ind'; intros r r' E; auto.
  assert (M : forall l, Forall (fun e => forall r r' : env, (forall x, r x = r' x) ->
               eval I r e = eval I r' e) l -> mapO (eval I r) l = mapO (eval I r') l).
  { induction 1; simpl; auto. now rewrite (H0 _ _ E), IHForall. }
  destruct k; cbn [eval];
    try (rewrite (M _ H); reflexivity);
    try (destruct args as [|[[]|] rest]; auto; destruct rest; auto; fail).
  - (* Ite *)
    destruct args as [|c [|a [|b [|]]]]; auto.
    inversion H as [|? ? Hc H1]; subst. inversion H1 as [|? ? Ha H2]; subst.
    inversion H2 as [|? ? Hb H3]; subst.
    rewrite (Hc _ _ E), (Ha _ _ E), (Hb _ _ E). reflexivity.
  - (* Let *)
    destruct args as [|c [|a [|b [|]]]]; auto;
      try (destruct c as [|[] ? [|[[]|] [|]]]; auto; fail).
    inversion H as [|? ? Hc H1]; subst. inversion H1 as [|? ? Ha H2]; subst.
    inversion H2 as [|? ? Hb H3]; subst.
    destruct c as [|[] ? [|[[]|] [|]]]; auto.
    rewrite (Ha _ _ E). destruct (eval I r' a); auto. apply Hb.
    intros x. unfold upd. destruct (String.eqb s x); auto.
  - destruct args as [|[[]|] rest]; auto. inversion H; subst. rewrite (M _ H3). reflexivity.
  - destruct args as [|[[]|] rest]; auto. inversion H; subst. rewrite (M _ H3). reflexivity.
Qed.

Lemma lit_val_bool_eq a b : atom_eqb a b = true -> lit_val TBool a = lit_val TBool b.
Proof.
  destruct a, b; simpl; try discriminate; auto.
  - intros E; apply Z.eqb_eq in E; now subst.
  - intros E; apply Z.eqb_eq in E; subst.
    match goal with |- context [b2z ?b] => destruct b end; reflexivity.
  - intros E; apply Z.eqb_eq in E; subst.
    match goal with |- context [b2z ?b] => destruct b end; reflexivity.
  - intros E; apply Bool.eqb_prop in E; now subst.
Qed.

Theorem equal_same_value I e1 : forall e2 r,
  expr_eqb e1 e2 = true -> lits_agree e1 e2 -> eval I r e1 = eval I r e2.
Proof.
  induction e1 using expr_ind'; destruct e2; intros r E L; auto; try discriminate.
  cbn [expr_eqb] in E. apply andb_true_iff in E as [K E]. apply kind_eqb_eq in K. subst k0.
  destruct (kind_eqb k KLit) eqn:KL.
  - apply kind_eqb_eq in KL; subst. simpl in L. destruct L as [-> L].
    simpl. destruct L as [-> | ->]; auto.
    destruct args as [|[a|] [|]], args0 as [|[b|] [|]]; simpl in *; auto; try discriminate;
      rewrite ?andb_false_r in *; try discriminate.
    rewrite andb_true_r in E. now apply lit_val_bool_eq.
  - assert (L' : all2 lits_agree args args0) by (destruct k; simpl in *; (assumption || discriminate)).
    clear L.
    assert (M : forall l l' r, Forall (fun e1 => forall e2 (r : env), expr_eqb e1 e2 = true ->
        lits_agree e1 e2 -> eval I r e1 = eval I r e2) l ->
        list_eqb expr_eqb l l' = true -> all2 lits_agree l l' ->
        mapO (eval I r) l = mapO (eval I r) l').
    { intros l l' r0 F. revert l'. induction F; destruct l'; cbn; auto; try discriminate.
      rewrite andb_true_iff. intros [E1 E2] [L1 L2]. now rewrite (H0 _ r0 E1 L1), (IHF _ E2 L2). }
    assert (A : forall a e, expr_eqb (Atom a) e = true -> forall s, a = PStr s -> e = Atom (PStr s)).
    { intros a e0 Ea s ->. destruct e0 as [[]|]; simpl in Ea; try discriminate.
      apply String.eqb_eq in Ea. now subst. }
    destruct k; cbn [eval]; try discriminate KL;
      try (rewrite (M _ _ r H E L'); reflexivity).
    + destruct args as [|[[s| | |]|] [|]], args0 as [|[[]|] [|]]; auto; simpl in E; try discriminate;
        rewrite ?andb_false_r in E; try discriminate.
      rewrite andb_true_r in E. apply String.eqb_eq in E. now subst.
    + destruct args as [|[[s| | |]|] [|]], args0 as [|[[]|] [|]]; auto; simpl in E; try discriminate;
        rewrite ?andb_false_r in E; try discriminate.
      rewrite andb_true_r in E. apply String.eqb_eq in E. now subst.
    + (* Ite *)
      destruct args as [|c [|a [|b [|]]]], args0 as [|c' [|a' [|b' [|]]]]; auto; simpl in E; try discriminate;
        rewrite ?andb_false_r in E; try discriminate.
      repeat (apply andb_true_iff in E as [? E]). simpl in L'. destruct L' as (L1 & L2 & L3 & _).
      inversion H as [|? ? Hc H1']; subst. inversion H1' as [|? ? Ha H2']; subst.
      inversion H2' as [|? ? Hb H3']; subst.
      rewrite (Hc c' r), (Ha a' r), (Hb b' r); auto.
    + (* Let *)
      destruct args as [|c [|a [|b [|]]]], args0 as [|c' [|a' [|b' [|]]]]; auto; simpl in E; try discriminate;
        rewrite ?andb_false_r in E; try discriminate;
        try (transitivity (@None val);
             [ try reflexivity; destruct c as [|[] ? [|[[]|] [|]]]; reflexivity
             | try reflexivity; destruct c' as [|[] ? [|[[]|] [|]]]; reflexivity ]; fail).
      repeat (apply andb_true_iff in E as [? E]). simpl in L'. destruct L' as (L1 & L2 & L3 & _).
      inversion H as [|? ? Hc H1']; subst. inversion H1' as [|? ? Ha H2']; subst.
      inversion H2' as [|? ? Hb H3']; subst.
      destruct c as [|kc ? ac], c' as [|kc' ? ac']; simpl in H0; try discriminate; auto.
      apply andb_true_iff in H0 as [K0 E0]. apply kind_eqb_eq in K0. subst kc'.
      destruct kc; auto.
      destruct ac as [|[[s| | |]|] [|]], ac' as [|[[]|] [|]]; auto; simpl in E0; try discriminate;
        rewrite ?andb_false_r in E0; try discriminate.
      rewrite andb_true_r in E0. apply String.eqb_eq in E0. subst.
      rewrite (Ha a' r); auto. destruct (eval I r a'); auto.
    + destruct args as [|[[s| | |]|] rest], args0 as [|[[]|] rest']; auto; simpl in E; try discriminate.
      apply andb_true_iff in E as [E0 E]. apply String.eqb_eq in E0. subst.
      inversion H; subst. destruct L' as [_ L']. now rewrite (M _ _ r H3 E L').
    + destruct args as [|[[s| | |]|] rest], args0 as [|[[]|] rest']; auto; simpl in E; try discriminate.
      apply andb_true_iff in E as [E0 E]. apply String.eqb_eq in E0. subst.
      inversion H; subst. destruct L' as [_ L']. now rewrite (M _ _ r H3 E L').
Qed.

(* ------------------------------------------------------------------ *)
(** * rewrite *)

Fixpoint no_let (e : expr) : Prop :=
  match e with
  | Atom _ => True
  | Node KLet _ _ => False
  | Node _ _ args => (fix go l := match l with [] => True | a :: r => no_let a /\ go r end) args
  end.

Lemma no_let_node k t args : no_let (Node k t args) -> k <> KLet /\ Forall no_let args.
Proof.
  intros H. split; [intros ->; exact H|].
  assert (X : (fix go l := match l with [] => True | a :: r => no_let a /\ go r end) args)
    by (destruct k; simpl in *; tauto).
  clear H. induction args; constructor; [tauto | apply IHargs; tauto].
Qed.

(** rebuilding gives a node that denotes the same as the original class would *)
Lemma rebuild_eval I r k t args e :
  rebuild k t args = Ok e -> eval I r e = eval I r (Node k t args).
Proof.
  intros R. destruct k; simpl in R;
    unfold mkArithN, mkArith2, mkEq, mkCmp, mkBoolN, mkNot, mkImplies, mkIte, mkLet,
      mkCall, mkCallValue, mkTupleExpr, mkAxiom, mkChoose, mkFn in R;
    repeat match type of R with
      | context [match ?l with _ => _ end] => destruct l eqn:?; simpl in R; try discriminate R
      | bindR ?m _ = Ok _ => destruct m eqn:?; cbn [bindR] in R; try discriminate R
      end; try discriminate R; injection R as <-; try reflexivity.
Qed.

Definition subst_env (I : interp) (r : env) (m : dict expr) : env :=
  fun x => match dget m x with Some e => eval I r e | None => r x end.


Lemma wf_var_shape k t args : is_var (Node k t args) = true -> wf (Node k t args) ->
  exists x, k = KVar /\ args = [Atom (PStr x)].
Proof.
  intros V W. inversion W; subst; clear W; try (eexists; split; reflexivity); try discriminate;
    unfold mkArithN, mkArith2, mkEq, mkCmp, mkBoolN, mkNot, mkImplies, mkIte, mkLet,
      mkCall, mkCallValue, mkTupleExpr, mkAxiom, mkChoose, mkFn in *;
    repeat match goal with
      | H : context [match ?l with _ => _ end] |- _ => destruct l eqn:?; simpl in H; try discriminate H
      | H : bindR ?m _ = Ok _ |- _ => destruct m eqn:?; cbn [bindR] in H; try discriminate H
      end; try discriminate;
    match goal with H : Ok _ = Ok _ |- _ => inv H end; try discriminate;
    simpl in *; intuition (subst; discriminate).
Qed.

Lemma subst_mapO I r r' f l l' :
  Forall2 (fun a b => f a = Ok b) l l' ->
  Forall (fun a => forall b, f a = Ok b -> eval I r b = eval I r' a) l ->
  mapO (eval I r) l' = mapO (eval I r') l.
Proof.
  induction 1; intros F; simpl; auto. inversion F; subst.
  now rewrite (H3 _ H), (IHForall2 H4).
Qed.

Lemma mapR_rewrite_atom m x rest args' :
  mapR (rewrite m) (Atom x :: rest) = Ok args' ->
  exists rest', args' = Atom x :: rest' /\ mapR (rewrite m) rest = Ok rest'.
Proof.
  simpl. destruct (mapR (rewrite m) rest); simpl; try discriminate.
  intros E; injection E as <-. eauto.
Qed.

Theorem rewrite_eval I r m e : forall e',
  wf e -> no_let e -> rewrite m e = Ok e' ->
  eval I r e' = eval I (subst_env I r m) e.
Proof.
  induction e using expr_ind'; intros e' W N R; [now apply wf_not_atom in W|].
  apply no_let_node in N as [NK N].
  destruct (is_var (Node k t args)) eqn:V.
  - destruct (wf_var_shape V W) as (x & -> & ->).
    simpl in R |- *. unfold subst_env. destruct (dget m x); injection R as <-; auto.
  - cbn [rewrite] in R. rewrite V in R.
    destruct (mapR (rewrite m) args) as [args'|] eqn:M; cbn [bindR] in R; [|discriminate].
    rewrite (rebuild_eval I r _ _ _ R).
    pose proof (mapR_ok_inv _ _ M) as F2. pose proof (wf_args W) as WA.
    assert (HE : Forall (fun a => forall b, rewrite m a = Ok b ->
                eval I r b = eval I (subst_env I r m) a) args).
    { rewrite Forall_forall in *. intros a Ha b Rb.
      destruct (WA a Ha) as [Wa|[z ->]]; [eapply H; eauto | simpl in Rb; injection Rb as <-; auto]. }
    assert (GEN : mapO (eval I r) args' = mapO (eval I (subst_env I r m)) args)
      by (eapply subst_mapO; eassumption).
    destruct k; cbn [eval]; try discriminate V; try congruence;
      try (rewrite GEN; reflexivity).
    + destruct args as [|[a|] rest].
      * simpl in M. injection M as <-. reflexivity.
      * apply mapR_rewrite_atom in M as (rest' & -> & M).
        destruct rest; [simpl in M; injection M as <-; reflexivity|].
        simpl in M. repeat res_step. reflexivity.
      * inversion W; subst; simpl in *; discriminate || idtac;
         unfold mkArithN, mkArith2, mkEq, mkCmp, mkBoolN, mkNot, mkImplies, mkIte, mkLet,
          mkCall, mkCallValue, mkTupleExpr, mkAxiom, mkChoose, mkFn in *;
         repeat match goal with
          | H : context [match ?l with _ => _ end] |- _ => destruct l eqn:?; simpl in H; try discriminate H
          | H : bindR ?m _ = Ok _ |- _ => destruct m eqn:?; cbn [bindR] in H; try discriminate H
          end; try discriminate;
         match goal with H : Ok _ = Ok _ |- _ => inv H end; simpl in *; intuition discriminate.
    + inversion F2 as [|c c' ? ? A F1]; subst; auto.
      inversion F1 as [|a a' ? ? A1 F3]; subst; auto.
      inversion F3 as [|b b' ? ? A2 F4]; subst; auto.
      inversion F4; subst; auto.
      inversion HE as [|? ? Hc H1']; subst. inversion H1' as [|? ? Ha H2']; subst.
      inversion H2' as [|? ? Hb H3']; subst.
      now rewrite (Hc _ A), (Ha _ A1), (Hb _ A2).
    + destruct args as [|[a|] rest].
      * simpl in M. injection M as <-. reflexivity.
      * apply mapR_rewrite_atom in M as (rest' & -> & M).
        inversion F2; subst. inversion HE; subst.
        erewrite subst_mapO by eassumption. reflexivity.
      * inversion W; subst; simpl in *; discriminate || idtac;
         unfold mkArithN, mkArith2, mkEq, mkCmp, mkBoolN, mkNot, mkImplies, mkIte, mkLet,
          mkCall, mkCallValue, mkTupleExpr, mkAxiom, mkChoose, mkFn in *;
         repeat match goal with
          | H : context [match ?l with _ => _ end] |- _ => destruct l eqn:?; simpl in H; try discriminate H
          | H : bindR ?m _ = Ok _ |- _ => destruct m eqn:?; cbn [bindR] in H; try discriminate H
          end; try discriminate;
         match goal with H : Ok _ = Ok _ |- _ => inv H end; simpl in *; intuition discriminate.
    + exfalso. clear -W.
      inversion W; subst;
         unfold mkArithN, mkArith2, mkEq, mkCmp, mkBoolN, mkNot, mkImplies, mkIte, mkLet,
          mkCall, mkCallValue, mkTupleExpr, mkAxiom, mkChoose, mkFn in *;
         repeat match goal with
          | H : context [match ?l with _ => _ end] |- _ => destruct l eqn:?; simpl in H; try discriminate H
          | H : bindR ?m _ = Ok _ |- _ => destruct m eqn:?; cbn [bindR] in H; try discriminate H
          end; try discriminate;
         match goal with H : Ok _ = Ok _ |- _ => inv H end; simpl in *; intuition discriminate.
Qed.

(** a mapping that respects types never makes [rewrite] raise *)
Fixpoint typed_map (m : dict expr) (e : expr) : Prop :=
  match e with
  | Atom _ => True
  | Node k t args =>
      (is_var e = true -> forall x e', args = [Atom (PStr x)] -> dget m x = Some e' ->
         wf e' /\ type_of e' = Ok t) /\
      (fix go l := match l with [] => True | a :: r => typed_map m a /\ go r end) args
  end.

Lemma typed_map_args m l :
  (fix go l := match l with [] => True | a :: r => typed_map m a /\ go r end) l ->
  Forall (typed_map m) l.
Proof. induction l; intros H; constructor; [apply H | apply IHl; apply H]. Qed.

Theorem rewrite_total m e : wf e -> typed_map m e ->
  exists e', rewrite m e = Ok e' /\ wf e' /\ type_of e' = type_of e.
Proof.
  induction e using expr_ind'; intros W T; [now apply wf_not_atom in W|].
  cbn [typed_map] in T. destruct T as [T1 T2]. apply typed_map_args in T2.
  destruct (is_var (Node k t args)) eqn:V.
  - destruct (wf_var_shape V W) as (x & -> & ->). simpl.
    destruct (dget m x) eqn:D.
    + exists e. destruct (T1 V x e eq_refl D). auto.
    + eexists; split; [reflexivity|]. auto.
  - cbn [rewrite]. rewrite V.
    assert (HF : Forall (fun a => wf a ->
       exists b, rewrite m a = Ok b /\ wf b /\ type_of b = type_of a) args).
    { rewrite Forall_forall in *. intros a Ha Wa. apply H; auto. }
    destruct (@map_args_wf (rewrite m) k t args W (fun a => eq_refl) HF)
      as (args' & M & A & R & W').
    rewrite M. cbn [bindR]. rewrite R. eexists; split; [reflexivity|]. auto.
Qed.

(* ------------------------------------------------------------------ *)
(** * counting *)

(** number of occurrences of variable [x] *)
Fixpoint occurrences (x : string) (e : expr) : nat :=
  match e with
  | Atom _ => 0
  | Node k t args =>
      if is_var e then
        match args with
        | Atom (PStr y) :: _ => if String.eqb x y then 1 else 0
        | _ => 0
        end
      else (fix go l := match l with [] => 0 | a :: r => occurrences x a + go r end) args
  end.

Definition count_of (d : dict nat) (x : string) : nat :=
  match dget d x with Some n => n | None => 0 end.

Lemma dget_dset V (d : dict V) k v x :
  dget (dset d k v) x = if String.eqb x k then Some v else dget d x.
Proof.
  induction d as [|[k' v'] d IH]; simpl.
  - destruct (String.eqb x k); auto.
  - destruct (String.eqb k k') eqn:E; simpl.
    + apply String.eqb_eq in E; subst k'. destruct (String.eqb x k); auto.
    + destruct (String.eqb x k') eqn:E2.
      * apply String.eqb_eq in E2; subst. rewrite String.eqb_sym in E. now rewrite E.
      * apply IH.
Qed.

Theorem count_uses_exact e : forall d x,
  count_of (count_uses e d) x = count_of d x + occurrences x e.
Proof.
  induction e using expr_ind'; intros d x; [simpl; lia|].
  cbn [count_uses occurrences].
  destruct (is_var (Node k t args)) eqn:V.
  - destruct args as [|[[]|] rest]; try lia.
    unfold count_of. destruct (dget d s) eqn:D; rewrite dget_dset;
      destruct (String.eqb x s) eqn:E; try lia;
      apply String.eqb_eq in E; subst; rewrite D; lia.
  - clear V. revert d. induction H; intros d; [simpl; lia|].
    rewrite IHForall, H. lia.
Qed.

Theorem count_uses_keys e : forall d x,
  dmem (count_uses e d) x = dmem d x || negb (Nat.eqb (occurrences x e) 0).
Proof.
  unfold dmem. induction e using expr_ind'; intros d x; [simpl; now rewrite orb_false_r|].
  cbn [count_uses occurrences].
  destruct (is_var (Node k t args)) eqn:V.
  - destruct args as [|[[]|] rest]; simpl; rewrite ?orb_false_r; auto.
    destruct (dget d s) eqn:D; rewrite dget_dset;
      destruct (String.eqb x s) eqn:E; simpl; rewrite ?orb_true_r, ?orb_false_r; auto.
  - clear V. revert d. induction H; intros d; [simpl; now rewrite orb_false_r|].
    rewrite IHForall, H, <- orb_assoc. f_equal.
    destruct (occurrences x x0); simpl; auto.
Qed.

Lemma occ_args x args :
  (fix go l := match l with [] => 0 | a :: r => occurrences x a + go r end) args = 0 ->
  Forall (fun a => occurrences x a = 0) args.
Proof. induction args; intros H; constructor; [lia | apply IHargs; lia]. Qed.

Theorem unused_irrelevant I x e : forall r v,
  occurrences x e = 0 -> eval I (upd r x v) e = eval I r e.
Proof.
  induction e using expr_ind'; intros r v O; auto.
  cbn [occurrences] in O.
  destruct (is_var (Node k t args)) eqn:V.
  - destruct k; try discriminate; simpl;
      destruct args as [|[[]|] [|]]; auto; unfold upd;
      destruct (String.eqb x s); auto; discriminate.
  - apply occ_args in O.
    assert (M : forall l, Forall (fun e => forall (r : env) (v : val), occurrences x e = 0 ->
               eval I (upd r x v) e = eval I r e) l ->
              Forall (fun a => occurrences x a = 0) l ->
              mapO (eval I (upd r x v)) l = mapO (eval I r) l).
    { induction 1; intros O'; simpl; auto. inversion O'; subst. now rewrite H0, IHForall. }
    destruct k; cbn [eval]; try discriminate V;
      try (rewrite (M _ H O); reflexivity).
    + reflexivity.
    + destruct args as [|c [|a [|b [|]]]]; auto.
      inversion H as [|? ? Hc H1]; subst. inversion H1 as [|? ? Ha H2]; subst.
      inversion H2 as [|? ? Hb H3]; subst.
      inversion O as [|? ? Oc O1]; subst. inversion O1 as [|? ? Oa O2]; subst.
      inversion O2 as [|? ? Ob O3]; subst.
      now rewrite Hc, Ha, Hb.
    + destruct args as [|c [|a [|b [|]]]]; auto;
        try (destruct c as [|[] ? [|[[]|] [|]]]; auto; fail).
      inversion H as [|? ? Hc H1]; subst. inversion H1 as [|? ? Ha H2]; subst.
      inversion H2 as [|? ? Hb H3]; subst.
      inversion O as [|? ? Oc O1]; subst. inversion O1 as [|? ? Oa O2]; subst.
      inversion O2 as [|? ? Ob O3]; subst.
      destruct c as [|[] ? [|[[]|] [|]]]; auto.
      rewrite Ha by auto. destruct (eval I r a); auto.
      simpl in Oc. destruct (String.eqb x s) eqn:E; [discriminate|].
      rewrite <- (Hb (upd r s v0) v Ob). apply eval_ext. intros y. unfold upd.
      destruct (String.eqb s y) eqn:E1, (String.eqb x y) eqn:E2; auto.
      apply String.eqb_eq in E1, E2. subst. now rewrite String.eqb_refl in E.
    + destruct args as [|[[]|] rest]; auto. inversion H; subst. inversion O; subst.
      now rewrite (M _ H3 H5).
    + destruct args as [|[[]|] rest]; auto. inversion H; subst. inversion O; subst.
      now rewrite (M _ H3 H5).
Qed.

(* ------------------------------------------------------------------ *)
(** * chooseArbitrarily *)

(** program [p] is described by grammar [g]: every choice in [g] was resolved *)
Inductive member : expr -> expr -> Prop :=
| mem_atom a : member (Atom a) (Atom a)
| mem_choose t alts g p : In g alts -> member g p -> member (Node KChoose t alts) p
| mem_node k t gs ps : k <> KChoose -> Forall2 member gs ps ->
    member (Node k t gs) (Node k t ps).

(** no [Choose] anywhere *)
Fixpoint choice_free (e : expr) : Prop :=
  match e with
  | Atom _ => True
  | Node KChoose _ _ => False
  | Node _ _ args => (fix go l := match l with [] => True | a :: r => choice_free a /\ go r end) args
  end.

(** the first alternative of every choice contains no further choice *)
Fixpoint first_alts_plain (e : expr) : Prop :=
  match e with
  | Atom _ => True
  | Node KChoose _ args => match args with a :: _ => choice_free a | [] => True end
  | Node _ _ args => (fix go l := match l with [] => True | a :: r => first_alts_plain a /\ go r end) args
  end.

Lemma choice_free_args k t args : k <> KChoose -> choice_free (Node k t args) -> Forall choice_free args.
Proof.
  intros K H.
  assert (X : (fix go l := match l with [] => True | a :: r => choice_free a /\ go r end) args)
    by (destruct k; simpl in *; tauto).
  clear H. induction args; constructor; [tauto | apply IHargs; tauto].
Qed.

Lemma choice_free_node k t args : k <> KChoose -> Forall choice_free args -> choice_free (Node k t args).
Proof.
  intros K H.
  assert (X : (fix go l := match l with [] => True | a :: r => choice_free a /\ go r end) args).
  { induction H; auto. }
  destruct k; simpl; tauto.
Qed.

Lemma first_alts_args k t args : k <> KChoose -> first_alts_plain (Node k t args) -> Forall first_alts_plain args.
Proof.
  intros K H.
  assert (X : (fix go l := match l with [] => True | a :: r => first_alts_plain a /\ go r end) args)
    by (destruct k; simpl in *; tauto).
  clear H. induction args; constructor; [tauto | apply IHargs; tauto].
Qed.

Lemma choice_free_member e : choice_free e -> member e e.
Proof.
  induction e using expr_ind'; intros C; [constructor|].
  assert (K : k <> KChoose) by (intros ->; exact C).
  apply choice_free_args in C; auto. constructor; auto.
  clear K. induction H; constructor; inversion C; subst; auto.
Qed.

Lemma wf_choose_args t args : wf (Node KChoose t args) ->
  args <> [] /\ Forall wf args /\ Forall (fun a => type_of a = Ok t) args.
Proof.
  intros W. inversion W; subst; clear W;
    unfold mkArithN, mkArith2, mkEq, mkCmp, mkBoolN, mkNot, mkImplies, mkIte, mkLet,
      mkCall, mkCallValue, mkTupleExpr, mkAxiom, mkFn in *;
    repeat match goal with
      | H : context [match ?l with _ => _ end] |- _ => destruct l eqn:?; simpl in H; try discriminate H
      | H : bindR ?m _ = Ok _ |- _ => destruct m eqn:?; cbn [bindR] in H; try discriminate H
      end; try discriminate;
    try (match goal with H : Ok _ = Ok _ |- _ => inv H end; simpl in *; intuition discriminate).
  unfold mkChoose in H0. destruct args0 as [|a0 r0]; try discriminate. repeat res_step.
  match goal with u : unit |- _ => destruct u end.
  match goal with E : check_types _ _ = Ok tt |- _ => apply check_types_forall in E end.
  repeat split; auto. discriminate.
Qed.

Theorem choose_arbitrarily_member e : wf e -> first_alts_plain e ->
  exists p, choose_arbitrarily e = Ok p /\ wf p /\ type_of p = type_of e /\
            member e p /\ choice_free p.
Proof.
  induction e using expr_ind'; intros W P; [now apply wf_not_atom in W|].
  destruct (kind_eqb k KChoose) eqn:K.
  - apply kind_eqb_eq in K; subst. destruct (wf_choose_args W) as (NE & WA & TA).
    destruct args as [|a rest]; [congruence|]. inversion WA; subst. inversion TA; subst.
    exists a. simpl in P. repeat split; auto.
    eapply mem_choose; [left; reflexivity | now apply choice_free_member].
  - assert (NK : k <> KChoose) by (intros ->; discriminate).
    apply first_alts_args in P; auto.
    assert (HF : Forall (fun a => wf a ->
       exists b, choose_arbitrarily a = Ok b /\ wf b /\ type_of b = type_of a) args).
    { rewrite Forall_forall in *. intros a Ha Wa.
      destruct (H a Ha Wa (P a Ha)) as (b & ? & ? & ? & _). eauto. }
    destruct (@map_args_wf choose_arbitrarily k t args W (fun a => eq_refl) HF)
      as (args' & M & A & R & W').
    assert (E : choose_arbitrarily (Node k t args) = Ok (Node k t args')).
    { destruct k; try congruence; cbn [choose_arbitrarily]; rewrite M; exact R. }
    exists (Node k t args'). split; [exact E|]. split; [exact W'|]. split; [reflexivity|].
    pose proof (mapR_ok_inv _ _ M) as F2. pose proof (wf_args W) as WA.
    assert (X : Forall2 member args args' /\ Forall choice_free args').
    { clear -F2 H P WA. induction F2; [split; constructor|].
      inversion H; subst. inversion P; subst. inversion WA; subst.
      destruct IHF2 as [I1 I2]; auto.
      destruct H7 as [Wx|[z ->]].
      - destruct (H3 Wx H5) as (b & Eb & _ & _ & Mb & Cb). rewrite Eb in H0. injection H0 as ->.
        split; constructor; auto.
      - simpl in H0. injection H0 as <-. split; constructor; auto; try constructor; exact Logic.I. }
    destruct X. split; [constructor; auto | apply choice_free_node; auto].
Qed.

(* ------------------------------------------------------------------ *)
(** * used function names *)

(** some call in [e] (at any depth) calls [f] *)
Inductive calls (f : string) : expr -> Prop :=
| calls_here k t rest : In k [KCall; KTargetCall] -> calls f (Node k t (Atom (PStr f) :: rest))
| calls_arg k t args a : In a args -> calls f a -> calls f (Node k t args).

Lemma get_fn_names_exact e : forall e' l, get_fn_names e = Ok (e', l) ->
  forall f, In f l <-> calls f e.
Proof.
  induction e using expr_ind'; intros e' l E f.
  - simpl in E. injection E as <- <-. split; [intros []|]. intros C; inversion C.
  - cbn [get_fn_names] in E.
    destruct (mapR get_fn_names args) as [rs|] eqn:M; cbn [bindR] in E; [|discriminate].
    destruct (rebuild k t (map fst rs)) as [re|]; cbn [bindR] in E; [|discriminate].
    injection E as <- <-. rewrite in_app_iff, in_concat.
    assert (A : (exists x, In x (map snd rs) /\ In f x) <-> exists a, In a args /\ calls f a).
    { pose proof (mapR_ok_inv _ _ M) as F2. clear -F2 H. induction F2; simpl.
      - split; [intros (x & [] & _) | intros (a & [] & _)].
      - inversion H; subst. destruct y as [ye yl]. simpl in *.
        specialize (IHF2 H4). split.
        + intros (z & [<-|Hz] & Hf); [exists x; split; auto; eapply H3; eauto|].
          destruct (proj1 IHF2) as (a & ? & ?); [eauto|]. eauto.
        + intros (a & [<-|Ha] & Hf); [exists yl; split; auto; eapply H3; eauto|].
          destruct (proj2 IHF2) as (z & ? & ?); [eauto|]. eauto. }
    rewrite A. split.
    + intros [Own | (b & Ha & Ca)]; [|eapply calls_arg; eauto].
      destruct k; simpl in Own; try tauto; destruct args as [|[[]|] rest]; simpl in Own; try tauto;
        destruct Own as [<-|[]]; apply calls_here; simpl; auto.
    + intros C. inversion C; subst; [left | right; eauto].
      simpl in H1. destruct H1 as [<-|[<-|[]]]; simpl; auto.
Qed.

Theorem get_used_fn_names_exact decls l : get_used_fn_names decls = Ok l ->
  forall f, In f l <-> exists k t args a, In (Node k t args) decls /\ In a args /\ calls f a.
Proof.
  unfold get_used_fn_names. intros E f.
  match type of E with bindR (mapR ?g _) _ = _ => set (G := g) in E end.
  destruct (mapR G decls) as [rs|] eqn:M; cbn [bindR] in E; [|discriminate].
  injection E as <-. rewrite in_concat.
  pose proof (mapR_ok_inv _ _ M) as F2. clear M.
  induction F2; simpl.
  - split; [intros (x & [] & _) | intros (k & t & args & a & [] & _)].
  - assert (A : In f y <-> exists k t args a, x = Node k t args /\ In a args /\ calls f a).
    { clear -H. subst G. cbn beta in H. destruct x as [|k t args]; [discriminate|].
      destruct (mapR get_fn_names args) as [rs|] eqn:M; cbn [bindR] in H; [|discriminate].
      destruct (rebuild k t (map fst rs)) as [re|]; cbn [bindR] in H; [|discriminate].
      injection H as <-. rewrite in_concat.
      pose proof (mapR_ok_inv _ _ M) as F2. clear M.
      assert (B : (exists x, In x (map snd rs) /\ In f x) <-> exists a, In a args /\ calls f a).
      { induction F2; simpl.
        - split; [intros (x & [] & _) | intros (a & [] & _)].
        - destruct y as [ye yl]. simpl in *. split.
          + intros (z & [<-|Hz] & Hf); [exists x; split; auto; eapply get_fn_names_exact; eauto|].
            destruct (proj1 IHF2) as (a & ? & ?); [eauto|]. eauto.
          + intros (a & [<-|Ha] & Hf); [exists yl; split; auto; eapply get_fn_names_exact; eauto|].
            destruct (proj2 IHF2) as (z & ? & ?); [eauto|]. eauto. }
      rewrite B. split.
      - intros (a' & ? & ?). exists k, t, args, a'. auto.
      - intros (k' & t' & args' & a' & E & ? & ?). injection E as <- <- <-. eauto. }
    split.
    + intros (z & [<-|Hz] & Hf).
      * apply A in Hf as (k & t & args & a & -> & ? & ?). exists k, t, args, a. auto.
      * destruct (proj1 IHF2) as (k & t & args & a & ? & ? & ?); [eauto|].
        exists k, t, args, a. auto.
    + intros (k & t & args & a & [->|Hd] & ? & ?).
      * exists y. split; auto. apply A. exists k, t, args, a. auto.
      * destruct (proj2 IHF2) as (z & ? & ?); [exists k, t, args, a; auto|]. eauto.
Qed.

Lemma get_fn_names_total e : wf e -> exists l, get_fn_names e = Ok (e, l).
Proof.
  induction e using expr_ind'; intros W; [now apply wf_not_atom in W|].
  cbn [get_fn_names]. pose proof (wf_args W) as WA.
  assert (X : exists rs, mapR get_fn_names args = Ok rs /\ map fst rs = args).
  { clear W. induction args as [|a args IH]; [exists []; auto|].
    inversion H; subst. inversion WA; subst. destruct (IH H3 H5) as (rs & E & F).
    destruct H4 as [Wa|[z ->]].
    - destruct (H2 Wa) as (l & El). exists ((a, l) :: rs). cbn [mapR]. rewrite El. cbn [bindR].
      rewrite E. simpl. now rewrite F.
    - exists ((Atom z, []) :: rs). cbn [mapR get_fn_names bindR]. rewrite E. simpl. now rewrite F. }
  destruct X as (rs & -> & F). cbn [bindR]. rewrite F.
  pose proof (map_args_id W) as MI. simpl in MI.
  assert (M : mapR (fun a => Ok a) args = Ok args).
  { clear. induction args; simpl; auto. now rewrite IHargs. }
  rewrite M in MI. cbn [bindR] in MI. rewrite MI. simpl. eauto.
Qed.

Theorem get_used_fn_names_total decls : Forall wf decls -> exists l, get_used_fn_names decls = Ok l.
Proof.
  intros F. unfold get_used_fn_names.
  match goal with |- context [bindR (mapR ?g decls) _] => set (G := g) end.
  assert (X : exists rs, mapR G decls = Ok rs).
  { induction F; [exists []; auto|]. destruct IHF as (rs & E).
    assert (Y : exists l, G x = Ok l).
    { destruct (wf_atom_node H) as (k & t & args & ->).
      destruct (get_fn_names_total H) as (l0 & El). cbn [get_fn_names] in El.
      subst G. cbn beta iota.
      destruct (mapR get_fn_names args) as [rs'|]; cbn [bindR] in El |- *; [|discriminate].
      destruct (rebuild k t (map fst rs')); cbn [bindR] in El |- *; [|discriminate]. eauto. }
    destruct Y as (l' & El). exists (l' :: rs). cbn [mapR]. rewrite El. cbn [bindR]. now rewrite E. }
  destruct X as (rs & ->). cbn [bindR]. eauto.
Qed.
