(** Properties of the IR transformations: C01 - C11. *)

From Coq Require Import String List ZArith Bool.
From Verif Require Import Ast Semantics Dict IrModel IrProofs IrProofs2 IrProofs3 IrProofs4 IrProofs5 IrProofs6.
Import ListNotations.
Local Open Scope string_scope.
Local Open Scope list_scope.

(** Shorthands for the examples. *)
Definition x_ : expr := mkVar "x" TInt.
Definition y_ : expr := mkVar "y" TInt.
Definition z_ : expr := mkVar "z" TInt.
Definition b_ : expr := mkVar "b" TBool.
Definition Eq2 a b := Node KEq TBool [a; b].
Definition And2 a b := Node KAnd TBool [a; b].
Definition Gt2 a b := Node KGt TBool [a; b].
Definition Imp2 a b := Node KImplies TBool [a; b].
Definition Not1 a := Node KNot TBool [a].
Definition Add2 a b := Node KAdd TInt [a; b].
Definition Ite3 c a b := Node KIte TInt [c; a; b].
Definition ChooseI l := Node KChoose TInt l.
Definition ChooseB l := Node KChoose TBool l.
Definition CallI f l := Node KCall TInt (Atom (PStr f) :: l).
Definition CallB f l := Node KCall TBool (Atom (PStr f) :: l).
Definition I0 : interp :=
  {| i_div := fun a b => Some (Z.div a b); i_mod := fun a b => Some (Z.modulo a b);
     i_call := fun _ _ => None |}.
Definition env_of (l : list (string * val)) : env := fun x => dget l x.

Ltac wf_tac :=
  match goal with |- wf ?e => let e' := eval hnf in e in change (wf e') end;
  lazymatch goal with
  | |- wf (Node KVar ?t [Atom (PStr ?x)]) => exact (wf_Var x t)
  | |- wf (Node KLit ?t [Atom ?a]) => exact (wf_Lit a t)
  | |- wf (Node KAdd _ ?l) => apply (@wf_ArithN KAdd l); [simpl; tauto | wf_list | reflexivity]
  | |- wf (Node KMul _ ?l) => apply (@wf_ArithN KMul l); [simpl; tauto | wf_list | reflexivity]
  | |- wf (Node KSub _ ?l) => apply (@wf_Arith2 KSub l); [simpl; tauto | wf_list | reflexivity]
  | |- wf (Node KDiv _ ?l) => apply (@wf_Arith2 KDiv l); [simpl; tauto | wf_list | reflexivity]
  | |- wf (Node KMod _ ?l) => apply (@wf_Arith2 KMod l); [simpl; tauto | wf_list | reflexivity]
  | |- wf (Node KEq _ ?l) => apply (@wf_Eq l); [wf_list | reflexivity]
  | |- _ => wf_rest
  end
with wf_rest :=
  lazymatch goal with
  | |- wf (Node KAnd _ ?l) => apply (@wf_BoolN KAnd l); [simpl; tauto | wf_list | reflexivity]
  | |- wf (Node KOr _ ?l) => apply (@wf_BoolN KOr l); [simpl; tauto | wf_list | reflexivity]
  | |- wf (Node KNot _ ?l) => apply (@wf_Not l); [wf_list | reflexivity]
  | |- wf (Node KImplies _ ?l) => apply (@wf_Implies l); [wf_list | reflexivity]
  | |- wf (Node KIte _ ?l) => apply (@wf_Ite l); [wf_list | reflexivity]
  | |- wf (Node KLet _ ?l) => apply (@wf_Let l); [wf_list | reflexivity]
  | |- wf (Node KCall ?t (Atom (PStr ?f) :: ?l)) => apply (@wf_Call f t l); [wf_list | reflexivity]
  | |- wf (Node KChoose _ ?l) => apply (@wf_Choose l); [wf_list | reflexivity]
  | |- wf (Node ?k _ ?l) => apply (@wf_Cmp k l); [simpl; tauto | wf_list | reflexivity]
  end
with wf_list := repeat (apply Forall_cons; [wf_tac|]); try apply Forall_nil.

Ltac typed_tac :=
  simpl; repeat split; intros; try discriminate;
  match goal with H : [_] = [_] |- _ => injection H; intros; subst; clear H end;
  simpl in *; try discriminate;
  match goal with H : Some _ = Some _ |- _ => injection H; intros; subst; clear H end;
  try apply wf_Var; try reflexivity.

(* ------------------------------------------------------------------ *)
(** ** C01 *)

(** Full statement: equality is what the comparison of class, number of
    arguments and arguments says; it is an equivalence; equal expressions have
    the same hash. *)
Theorem C01_equality :
  (forall e1 e2, expr_eqb e1 e2 = true <-> py_equal e1 e2) /\
  (forall e, py_equal e e) /\
  (forall e1 e2, py_equal e1 e2 -> py_equal e2 e1) /\
  (forall e1 e2 e3, py_equal e1 e2 -> py_equal e2 e3 -> py_equal e1 e3) /\
  (forall e1 e2, py_equal e1 e2 -> expr_hash e1 = expr_hash e2).
Proof.
  split; [intros; apply py_equal_iff|]. split; [intros; apply py_equal_iff, expr_eqb_refl|].
  split; [intros e1 e2; rewrite <- !py_equal_iff, expr_eqb_sym; auto|].
  split; [intros e1 e2 e3; rewrite <- !py_equal_iff; apply expr_eqb_trans|]. reflexivity.
Qed.
Print Assumptions C01_equality.

(** equality tells expressions apart (it is not the total relation) and
    identifies different trees (types are ignored) *)
Example C01_nontrivial :
  py_equal (Add2 x_ (IntLit 1)) (Node KAdd TBool [x_; BoolLit true]) /\
  ~ py_equal (Add2 x_ y_) (Add2 y_ x_).
Proof. split; [apply py_equal_iff | rewrite <- py_equal_iff]; vm_compute; congruence. Qed.

(* ------------------------------------------------------------------ *)
(** ** C02 *)

(** Full statement (false): [forall e1 e2, py_equal e1 e2 -> forall I r, eval I r e1 = eval I r e2]. *)
Theorem C02_interchangeable_refuted :
  exists e1 e2, wf e1 /\ wf e2 /\ py_equal e1 e2 /\
    exists I r v1 v2, eval I r e1 = Some v1 /\ eval I r e2 = Some v2 /\ v1 <> v2.
Proof.
  exists (IntLit 1), (BoolLit true). split; [wf_tac|]. split; [wf_tac|].
  split; [now apply py_equal_iff|].
  exists I0, (fun _ => None), (VInt 1), (VBool true). repeat split; discriminate.
Qed.
Print Assumptions C02_interchangeable_refuted.

(** What holds: replacing any number of occurrences, provided literals at the
    same position have the same type (and, for integers, the same object). *)
Theorem C02_interchangeable_partial : forall I e1 e2,
  py_equal e1 e2 -> lits_agree e1 e2 ->
  forall c c', replaced e1 e2 c c' -> forall r, eval I r c = eval I r c'.
Proof. intros I e1 e2 E. apply py_equal_iff in E. exact (equal_interchangeable I e1 e2 E). Qed.
Print Assumptions C02_interchangeable_partial.

Example C02_nontrivial :
  let e1 := mkVar "x" TInt in let e2 := mkVar "x" TBool in
  py_equal e1 e2 /\ lits_agree e1 e2 /\ e1 <> e2 /\
  replaced e1 e2 (Add2 e1 (IntLit 1)) (Add2 e2 (IntLit 1)).
Proof.
  cbn zeta. split; [now apply py_equal_iff|]. split; [simpl; auto|]. split; [discriminate|].
  apply rep_node; [discriminate|]. repeat constructor.
Qed.

(* ------------------------------------------------------------------ *)
(** ** C03 *)

(** Full statement (false): the result is equal to [e] for every constructible
    expression.  It fails for the subclasses [NonTerm], [TargetCall], [Target]. *)
Theorem C03_map_args_identity_refuted :
  exists e e', constructible e /\ map_args (fun a => Ok a) e = Ok e' /\ ~ py_equal e' e.
Proof.
  exists (Node KTargetCall TInt [Atom (PStr "f"); x_]).
  exists (Node KCall TInt [Atom (PStr "f"); x_]).
  split; [|split; [reflexivity|]].
  - unfold constructible. simpl. wf_tac.
  - rewrite <- py_equal_iff. discriminate.
Qed.
Print Assumptions C03_map_args_identity_refuted.

(** What holds: it always succeeds and keeps the type; the only change is that
    a node of a subclass at the top becomes a node of its base class; all other
    expressions are returned unchanged. *)
Theorem C03_map_args_identity_partial : forall e, constructible e -> is_expr e = true ->
  exists e', map_args (fun a => Ok a) e = Ok e' /\ type_of e' = type_of e /\ base_of e' = base_of e /\
    (forall k t args, e = Node k t args -> base_kind k = k -> e' = e).
Proof. exact map_args_identity_any. Qed.
Print Assumptions C03_map_args_identity_partial.

Example C03_nontrivial : constructible (Add2 (Node KTargetCall TInt [Atom (PStr "f"); x_]) (IntLit 2)).
Proof.
  unfold constructible. simpl. wf_tac.
Qed.

(* ------------------------------------------------------------------ *)
(** ** C04 *)

Theorem C04_simplify : forall e, constructible e -> lets_bind_vars e ->
  exists e', simplify e = Ok e' /\ constructible e' /\ type_of e' = type_of e /\
    no_lit_conjunct e' /\
    (forall I r v, eval I r e = Some v -> eval I r e' = Some v).
Proof. exact simplify_constructible. Qed.
Print Assumptions C04_simplify.

Example C04_nontrivial :
  let e := And2 (BoolLit true) (And2 (BoolLit true) (Gt2 x_ y_)) in
  constructible e /\ lets_bind_vars e /\ simplify e = Ok (Gt2 x_ y_) /\
  eval I0 (env_of [("x", VInt 3); ("y", VInt 2)]) e = Some (VBool true).
Proof. cbn zeta. split; [unfold constructible; simpl; wf_tac|]. simpl. repeat split; intros; congruence. Qed.

(* ------------------------------------------------------------------ *)
(** ** C05 *)

(** Full statement (false): for all [e], [m].  A [Let] captures. *)
Theorem C05_rewrite_refuted :
  exists I r m e e', wf e /\ typed_map m e /\ rewrite m e = Ok e' /\
    eval I r e' <> eval I (subst_env I r m) e /\ eval I (subst_env I r m) e <> None.
Proof.
  exists I0, (env_of [("x", VInt 5); ("y", VInt 7)]), [("y", x_)].
  exists (Node KLet TInt [x_; IntLit 1; y_]), (Node KLet TInt [x_; IntLit 1; x_]).
  split; [wf_tac|]. split; [|split; [reflexivity|split; discriminate]].
  typed_tac.
Qed.
Print Assumptions C05_rewrite_refuted.

(** What holds: simultaneous substitution for expressions without [Let]; and
    with a type-respecting mapping [rewrite] never raises. *)
Theorem C05_rewrite_partial : forall m e, wf e -> no_let e ->
  (forall I r e', rewrite m e = Ok e' -> eval I r e' = eval I (subst_env I r m) e) /\
  (typed_map m e -> exists e', rewrite m e = Ok e' /\ wf e' /\ type_of e' = type_of e).
Proof.
  intros m e W N. split; [intros I r e'; exact (@rewrite_eval I r m e e' W N) | exact (@rewrite_total m e W)].
Qed.
Print Assumptions C05_rewrite_partial.

(** simultaneous: swapping two variables *)
Example C05_nontrivial :
  let m := [("x", y_); ("y", x_)] in let e := Node KSub TInt [x_; y_] in
  wf e /\ no_let e /\ typed_map m e /\ rewrite m e = Ok (Node KSub TInt [y_; x_]).
Proof.
  cbn zeta. split; [wf_tac|]. split; [simpl; tauto|]. split; [|reflexivity].
  typed_tac.
Qed.

(* ------------------------------------------------------------------ *)
(** ** C06 *)

Theorem C06_counts : forall e d x,
  count_of (count_uses e d) x = count_of d x + occurrences x e /\
  (dmem (count_uses e d) x = true <-> dmem d x = true \/ occurrences x e > 0) /\
  (dmem (count_uses e []) x = false -> forall I r v, eval I (upd r x v) e = eval I r e).
Proof.
  intros e d x. split; [exact (count_uses_exact e d x)|]. split.
  - rewrite count_uses_keys, orb_true_iff, negb_true_iff, PeanoNat.Nat.eqb_neq.
    split; intros [H|H]; auto; right.
    + apply PeanoNat.Nat.neq_0_lt_0. exact H.
    + intros E. rewrite E in H. inversion H.
  - rewrite count_uses_keys. simpl. rewrite negb_false_iff, PeanoNat.Nat.eqb_eq.
    intros O I r v. exact (@unused_irrelevant I x e r v O).
Qed.
Print Assumptions C06_counts.

Example C06_nontrivial :
  count_uses (Add2 x_ (Add2 y_ x_)) [("x", 4)] = [("x", 6); ("y", 1)] /\
  dmem (count_uses (Add2 x_ y_) []) "z" = false.
Proof. split; reflexivity. Qed.

(* ------------------------------------------------------------------ *)
(** ** C08 *)

(** Full statement (false): expanding the references gives back the grammar.
    [Choose(0, 1) == Choose(False, True)], so a boolean and an integer choice
    become one: the program [ite(True, 0, x)] of the grammar is lost. *)
Theorem C08_sharing_refuted :
  exists body body' defs p, wf body /\ sharable body /\ no_ref_names true body /\
    share_choices true body = Ok (body', defs) /\ member body p /\
    (exists I r v, eval I r p = Some v /\
       forall e p', expands true defs body' e -> member e p' -> eval I r p' <> Some v).
Proof.
  set (c0 := Node KChoose TInt [IntLit 0; IntLit 1]).
  set (cb := Node KChoose TBool [BoolLit false; BoolLit true]).
  set (body := Node KIte TInt [cb; c0; x_]).
  set (ref := fun t => mkVar "(v0)" t).
  exists body, (Node KIte TInt [ref TBool; ref TInt; x_]), [c0], (Node KIte TInt [BoolLit true; IntLit 0; x_]).
  split; [wf_tac|].
  assert (SUB : forall s, subexpr s body -> In s (subs body)) by (intros; now apply subs_all).
  vm_compute in SUB.
  split. { intros k t args Hs. apply SUB in Hs. simpl in Hs.
           repeat destruct Hs as [Hs|Hs]; try discriminate Hs; try (injection Hs as <- <- <-; reflexivity). tauto. }
  split. { intros i t Hs. apply SUB in Hs. unfold mkVar, choice_ref in Hs. simpl in Hs.
           repeat destruct Hs as [Hs|Hs]; try discriminate Hs. tauto. }
  split; [reflexivity|].
  split. { apply mem_node; [discriminate|]. constructor.
           { eapply mem_choose; [right; left; reflexivity|]. apply mem_node; [discriminate|]. repeat constructor. }
           constructor.
           { eapply mem_choose; [left; reflexivity|]. apply mem_node; [discriminate|]. repeat constructor. }
           constructor; [|constructor]. apply mem_node; [discriminate|]. repeat constructor. }
  exists I0, (fun _ => None), (VInt 0). split; [reflexivity|].
  assert (INT : forall e p', expands true [c0] (ref TBool) e -> member e p' -> forall r, eval I0 r p' = Some (VInt 0) \/ eval I0 r p' = Some (VInt 1)).
  { intros e p' X M r. unfold ref in X. inversion X as [|i t d e0 N X'|k t args args' NR F]; subst.
    - destruct i; [|destruct i; discriminate]. simpl in N. injection N as <-.
      inversion X' as [| |k t' args args' NR F]; subst. clear X'.
      inversion F as [|? ? ? ? A F']; subst. inversion F' as [|? ? ? ? B F'']; subst. inversion F''; subst.
      assert (L : forall z e, expands true [c0] (IntLit z) e -> e = IntLit z).
      { intros z e1 Y. unfold IntLit, mkLit in Y. inversion Y as [| |? ? ? ? ? G]; subst.
        inversion G as [|? ? ? ? G1 G2]; subst. inversion G2; subst. inversion G1; subst. reflexivity. }
      apply L in A. apply L in B. subst.
      inversion M as [|? ? g ? IN M'|]; subst; [|congruence].
      destruct IN as [<-|[<-|[]]]; inversion M' as [| |? ? ? ? ? G]; subst;
        inversion G as [|? ? ? ? G1 G2]; subst; inversion G2; subst; inversion G1; subst; simpl; auto.
    - exfalso. apply (NR 0 TBool). reflexivity. }
  intros e p' X M. inversion X as [|i t d e0 N X'|k t args args' NR F]; subst.
  inversion F as [|? ? ? ? A F1]; subst. inversion F1 as [|? ? ? ? B F2]; subst.
  inversion F2 as [|? ? ? ? C F3]; subst. inversion F3; subst.
  inversion M as [| |? ? ? ps _ G]; subst.
  inversion G as [|? ? ? ? MA G1]; subst. inversion G1 as [|? ? ? ? MB G2]; subst.
  inversion G2 as [|? ? ? ? MC G3]; subst. inversion G3; subst.
  simpl. destruct (INT _ _ A MA (fun _ => None)) as [-> | ->]; discriminate.
Qed.
Print Assumptions C08_sharing_refuted.

(** What holds: emission succeeds; the expansion (there is one and only one) is the
    grammar itself when choices that compare equal are identical, and equal to it in
    the sense of [Expr.__eq__] in any case; and every choice is emitted exactly once. *)
Theorem C08_sharing_partial : forall ros body, wf body -> sharable body -> no_ref_names ros body ->
  exists body' defs, share_choices ros body = Ok (body', defs) /\
    (exists e, expands ros defs body' e /\ py_equal e body /\ forall e', expands ros defs body' e' -> e' = e) /\
    (no_coincidence body -> forall e, expands ros defs body' e <-> e = body).
Proof.
  intros ros body W S N. destruct (share_choices_total ros body W S) as (body' & defs & E).
  exists body', defs. split; auto. split.
  - destruct (share_choices_equal ros body body' defs W S N E) as (e & X & Y).
    exists e. split; auto. split; [now apply py_equal_iff|]. intros e' X'. exact (expands_one _ _ _ _ X' _ X).
  - intros C e. pose proof (share_choices_exact ros body body' defs W S N C E) as X. split; [|now intros ->].
    intros X'. exact (expands_one _ _ _ _ X' _ X).
Qed.
Print Assumptions C08_sharing_partial.

Theorem C08_emitted_once_partial : forall body, is_expr body = true ->
  forall s, subexpr s body -> is_choose s = true ->
  exists i c, nth_error (shared_of body) i = Some c /\ py_equal c s /\
    forall j c', nth_error (shared_of body) j = Some c' -> py_equal c' s -> j = i.
Proof.
  intros body X s S C. destruct (shared_exactly_once body X s S C) as (i & c & A & B & D).
  exists i, c. split; auto. split; [now apply py_equal_iff|].
  intros j c' Hj Ej. apply py_equal_iff in Ej. eauto.
Qed.
Print Assumptions C08_emitted_once_partial.

(** a grammar in which a choice occurs twice, once nested in another choice *)
Example C08_nontrivial :
  let c := ChooseI [x_; IntLit 1] in
  let body := ChooseI [Add2 c c; c] in
  wf body /\ share_choices true body =
    Ok (mkVar "(v0)" TInt,
        [ChooseI [Add2 (mkVar "(v1)" TInt) (mkVar "(v1)" TInt); mkVar "(v1)" TInt];
         ChooseI [x_; IntLit 1]]).
Proof. cbn zeta. split; [wf_tac | reflexivity]. Qed.

(* ------------------------------------------------------------------ *)
(** ** C09 *)

(** Full statement (false): the result contains no choice.  It fails when the
    first alternative of a choice contains a choice. *)
Theorem C09_chooseArbitrarily_refuted :
  exists e p, wf e /\ choose_arbitrarily e = Ok p /\ ~ choice_free p.
Proof.
  exists (ChooseI [Add2 (ChooseI [x_; y_]) (IntLit 1); z_]), (Add2 (ChooseI [x_; y_]) (IntLit 1)).
  split; [wf_tac|]. split; [reflexivity|]. simpl. tauto.
Qed.
Print Assumptions C09_chooseArbitrarily_refuted.

Theorem C09_chooseArbitrarily_partial : forall e, wf e -> first_alts_plain e ->
  exists p, choose_arbitrarily e = Ok p /\ wf p /\ type_of p = type_of e /\
            member e p /\ choice_free p.
Proof. exact choose_arbitrarily_member. Qed.
Print Assumptions C09_chooseArbitrarily_partial.

Example C09_nontrivial :
  let e := Add2 (ChooseI [x_; ChooseI [y_; z_]]) (ChooseI [IntLit 1; IntLit 2]) in
  wf e /\ first_alts_plain e /\ choose_arbitrarily e = Ok (Add2 x_ (IntLit 1)).
Proof. cbn zeta. split; [wf_tac|]. split; [simpl; tauto | reflexivity]. Qed.

(* ------------------------------------------------------------------ *)
(** ** C10 *)

(** For every table of definitions, pruning succeeds, and any call that has a
    result (by unfolding [n] levels) has the same result in the pruned table. *)
Theorem C10_prune : forall fns : dict fndef,
  (forall f d, In (f, d) fns -> wf (fn_body d) /\
     Forall (fun p => exists x t, p = mkVar x t) (fn_params d)) ->
  exists fns', prune_fn_decls fns = Ok fns' /\
    forall base n f vs v, table_call base fns n f vs = Some v ->
      table_call base fns' n f vs = Some v.
Proof.
  intros fns H. destruct (prune_total fns H) as (fns' & E). exists fns'. split; auto.
  intros base. apply (prune_refines base fns fns'); auto.
  intros f d D. apply (H f). clear -D. induction fns as [|[x d'] fns IH]; [discriminate|].
  simpl in D. destruct (String.eqb f x) eqn:E; [|right; auto].
  injection D as ->. apply String.eqb_eq in E. subst. left; auto.
Qed.
Print Assumptions C10_prune.

Example C10_nontrivial :
  let cond := {| fn_params := [x_]; fn_body := BoolLit true; fn_kind := KFnDecl; fn_ret := TBool |} in
  let f := {| fn_params := [x_];
              fn_body := Ite3 (CallB "g" [x_]) (Ite3 (BoolLit false) (IntLit 3) (Add2 x_ (CallI "f" [IntLit 9]))) y_;
              fn_kind := KFnDecl; fn_ret := TInt |} in
  let f' := {| fn_params := [x_];
              fn_body := Ite3 (BoolLit false) (IntLit 3) (Add2 x_ (CallI "f" [IntLit 9]));
              fn_kind := KFnDecl; fn_ret := TInt |} in
  prune_fn_decls [("g", cond); ("f", f)] = Ok [("g", cond); ("f", f')].
Proof. vm_compute. reflexivity. Qed.

(* ------------------------------------------------------------------ *)
(** ** C11 *)

Theorem C11_used_names : forall decls, Forall wf decls ->
  exists l, get_used_fn_names decls = Ok l /\
    forall f, In f l <-> exists k t args a, In (Node k t args) decls /\ In a args /\ calls f a.
Proof.
  intros decls W. destruct (get_used_fn_names_total W) as (l & E). exists l. split; auto.
  exact (@get_used_fn_names_exact decls l E).
Qed.
Print Assumptions C11_used_names.

Example C11_nontrivial :
  let d := Node KFnDecl (TFn [TInt; TInt]) [Atom (PStr "f"); CallI "g" [CallI "h" [x_]]; x_] in
  wf d /\ get_used_fn_names [d] = Ok ["g"; "h"].
Proof.
  cbn zeta. split; [|reflexivity].
  eapply wf_Fn with (k := KFnDecl) (f := "f") (r := TInt) (args := [x_])
    (body := CallI "g" [CallI "h" [x_]]); [simpl; tauto | left; wf_tac | wf_list | reflexivity].
Qed.
