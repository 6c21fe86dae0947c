(** C64: giving the calls of a function new arguments keeps the meaning. *)

From Coq Require Import String List Bool ZArith Lia.
From Verif Require Import Ast Semantics IrProofs IrProofs3 AugModel.
Import ListNotations.
Local Open Scope string_scope.
Local Open Scope list_scope.

(** ** Specification *)

(** no variable is bound and no function called through a value inside [e] *)
Fixpoint flat (e : expr) : Prop :=
  match e with
  | Atom _ => True
  | Node k _ args => k <> KLet /\ k <> KCallValue /\ (fix go l := match l with [] => True | a :: l' => flat a /\ go l' end) args
  end.

(** [J] is [I], except that [fn] takes the values [extra] from position [i] on, and does
    with the other arguments what it does in [I] *)
Definition takes (I J : interp) (fn : string) (i : nat) (extra : list val) : Prop :=
  (forall a b, i_div J a b = i_div I a b) /\ (forall a b, i_mod J a b = i_mod I a b) /\
  (forall f vs, f <> fn -> i_call J f vs = i_call I f vs) /\
  (forall before after, length before = i \/ (length before < i /\ after = []) ->
     i_call J fn (before ++ extra ++ after) = i_call I fn (before ++ after)).

(** ** Proofs *)

Lemma flat_node k t args : flat (Node k t args) -> k <> KLet /\ k <> KCallValue /\ Forall flat args.
Proof.
  cbn. intros (L & C & H). split; [exact L|]. split; [exact C|]. induction args; constructor; [tauto | apply IHargs; tauto].
Qed.
Lemma mapR_F2 {A B} (f : A -> res B) : forall l m, mapR f l = Ok m -> Forall2 (fun a b => f a = Ok b) l m.
Proof.
  induction l as [|a l IH]; intros m H; cbn in H; [injection H as <-; constructor|].
  destruct (f a) eqn:E; [|discriminate]. cbn in H. destruct (mapR f l) eqn:E2; [|discriminate]. cbn in H. injection H as <-. constructor; auto.
Qed.
Lemma mapO_app {A B} (f : A -> option B) a b : mapO f (a ++ b) =
  match mapO f a, mapO f b with Some x, Some y => Some (x ++ y) | _, _ => None end.
Proof.
  induction a as [|c a IH]; cbn; [now destruct (mapO f b)|]. destruct (f c); [|reflexivity]. rewrite IH.
  destruct (mapO f a), (mapO f b); reflexivity.
Qed.
Lemma mapO_len {A B} (f : A -> option B) : forall l m, mapO f l = Some m -> length m = length l.
Proof.
  induction l as [|a l IH]; intros m H; cbn in H; [now injection H as <-|]. destruct (f a); [|discriminate].
  destruct (mapO f l); [|discriminate]. injection H as <-. cbn. f_equal. now apply IH.
Qed.
Lemma mapO_F2 (f g : expr -> option val) l m : Forall2 (fun a b => f a = g b) l m -> mapO f l = mapO g m.
Proof. induction 1 as [|a b l m H F IH]; cbn; [reflexivity|]. now rewrite H, IH. Qed.

Lemma op_same I J k vs : (forall a b, i_div J a b = i_div I a b) -> (forall a b, i_mod J a b = i_mod I a b) -> k <> KCallValue ->
  op_val J k vs = op_val I k vs.
Proof.
  intros D M K. destruct k; try reflexivity; try congruence; cbn; unfold int2;
    (destruct vs as [|[] [|[] [|]]]; try reflexivity); now rewrite ?D, ?M.
Qed.

(** ** Theorems *)

(** An expression that binds no variable has the value it had, when the function takes
    the new arguments.  Missing: [Let], which may capture a variable of the new arguments (below),
    and calls through values, which get no new arguments. *)
Theorem C64_augment_partial : forall I J r fn i new extra, takes I J fn i extra -> mapO (eval J r) new = Some extra ->
  forall e e', flat e -> augment_arguments fn new i e = Ok e' -> eval J r e' = eval I r e.
Proof.
  intros I J r fn i new extra (D & M & O & N) X e. induction e as [a|k t args IH] using expr_ind'; intros e' F A; [cbn in A; now injection A as <-|].
  apply flat_node in F as (KL & KC & F).
  assert (Q : forall args', mapR (augment_arguments fn new i) args = Ok args' -> Forall2 (fun a b => eval J r a = eval I r b) args' args).
  { intros args' R. apply mapR_F2 in R. revert IH F R. clear. intros IH F R. revert IH F. induction R as [|a b l m H R IHR]; intros IH F; constructor;
      inversion IH; inversion F; subst; auto. }
  destruct k; try congruence; cbn [augment_arguments] in A;
    try (destruct (mapR (augment_arguments fn new i) args) as [args'|] eqn:R; cbn [bindR] in A; [|discriminate];
         rewrite (@rebuild_eval J r _ _ _ _ A); specialize (Q _ eq_refl);
         cbn [eval]; try (rewrite (mapO_F2 _ _ _ _ Q); destruct (mapO (eval I r) args); [|reflexivity]; apply op_same; (assumption || discriminate)));
    try (injection A as <-; reflexivity).
  all: try (clear - Q; destruct Q as [|c' c ? ? H1 Q]; [reflexivity|]; destruct Q as [|a' a ? ? H2 Q]; [reflexivity|];
            destruct Q as [|b' b ? ? H3 Q]; [reflexivity|]; destruct Q; [|reflexivity]; now rewrite H1, H2, H3).
  (* calls *)
  all: destruct args as [|[[f|z|b|]|k' t' l'] rest]; try discriminate A;
    destruct (mapR (augment_arguments fn new i) rest) as [processed|] eqn:R; cbn [bindR] in A; try discriminate A;
    assert (QR : Forall2 (fun a b => eval J r a = eval I r b) processed rest)
      by (specialize (Q (Atom (PStr f) :: processed)); cbn [mapR augment_arguments bindR] in Q; rewrite R in Q; specialize (Q eq_refl); now inversion Q);
    apply mapO_F2 in QR;
    (destruct (String.eqb_spec f fn) as [->|NE]; unfold mkCall in A; injection A as <-; cbn [eval];
      [|rewrite QR; destruct (mapO (eval I r) rest); [now apply O | reflexivity]]);
    rewrite !mapO_app, X; rewrite <- QR;
    replace (mapO (eval J r) processed) with (mapO (eval J r) (firstn i processed ++ skipn i processed)) by (rewrite firstn_skipn; reflexivity);
    rewrite mapO_app;
    destruct (mapO (eval J r) (firstn i processed)) as [u|] eqn:U; [|reflexivity];
    destruct (mapO (eval J r) (skipn i processed)) as [v|] eqn:V; [|reflexivity];
    apply N; apply mapO_len in U; apply mapO_len in V; rewrite firstn_length in U; rewrite skipn_length in V;
    (destruct (Nat.le_gt_cases i (length processed)); [left; lia | right; split; [lia | destruct v; [reflexivity | cbn in V; lia]]]).
Qed.
Print Assumptions C64_augment_partial.

(** The case of dissolve_blend_8: two variables after the first two arguments *)
Definition V (x : string) : expr := mkVar x TInt.
Definition call (f : string) (l : list expr) : expr := Node KCall TInt (Atom (PStr f) :: l).
Definition I0 : interp := {| i_div := fun _ _ => None; i_mod := fun _ _ => None;
  i_call := fun f vs => match vs with [VInt a; VInt b; VInt c] => Some (VInt (a * b - c)) | _ => None end |}.
Definition J0 : interp := {| i_div := fun _ _ => None; i_mod := fun _ _ => None;
  i_call := fun f vs => if String.eqb f "sel" then match vs with a :: b :: VInt 7 :: VInt 8 :: r => i_call I0 f (a :: b :: r) | _ => None end else i_call I0 f vs |}.
Definition r0 : env := fun x => if String.eqb x "opacity" then Some (VInt 7) else if String.eqb x "rand_cons" then Some (VInt 8) else Some (VInt 3).
Example C64_takes_case : takes I0 J0 "sel" 2 [VInt 7; VInt 8].
Proof.
  split; [reflexivity|]. split; [reflexivity|]. split.
  - intros f vs H. cbn. now destruct (String.eqb_spec f "sel").
  - intros before after [H|[H ->]].
    + destruct before as [|a [|b [|]]]; try discriminate H. reflexivity.
    + destruct before as [|a [|b l]]; try (cbn in H; lia); [reflexivity|]. now destruct a.
Qed.
Example C64_augment_case :
  let e := call "sel" [V "a"; call "sel" [V "a"; IntLit 2; IntLit 1]; V "c"] in
  let e' := call "sel" [V "a"; call "sel" [V "a"; IntLit 2; V "opacity"; V "rand_cons"; IntLit 1]; V "opacity"; V "rand_cons"; V "c"] in
  flat e /\ augment_arguments "sel" [V "opacity"; V "rand_cons"] 2 e = Ok e' /\
  mapO (eval J0 r0) [V "opacity"; V "rand_cons"] = Some [VInt 7; VInt 8] /\ eval J0 r0 e' = Some (VInt 12) /\ eval I0 r0 e = Some (VInt 12).
Proof. cbv zeta. split; [cbn; repeat split; discriminate|]. repeat split; reflexivity. Qed.

(** A variable of the new arguments that is bound by a [Let] around a call is captured. *)

Theorem C64_let_refuted : exists I J r fn new extra e e', takes I J fn 1 extra /\ mapO (eval J r) new = Some extra /\
  augment_arguments fn new 1 e = Ok e' /\ eval I r e = Some (VInt 8) /\ eval J r e' <> Some (VInt 8).
Proof.
  exists {| i_div := fun _ _ => None; i_mod := fun _ _ => None;
            i_call := fun f vs => if String.eqb f "f" then match vs with [VInt a] => Some (VInt (a + 7)) | _ => None end else None |}.
  exists {| i_div := fun _ _ => None; i_mod := fun _ _ => None;
            i_call := fun f vs => if String.eqb f "f" then match vs with [VInt a; VInt 7] => Some (VInt (a + 7)) | [VInt a; VInt b] => Some (VInt (a + b)) | _ => None end else None |}.
  exists r0, "f", [V "opacity"], [VInt 7].
  exists (Node KLet TInt [V "opacity"; IntLit 1; call "f" [V "opacity"]]).
  exists (Node KLet TInt [V "opacity"; IntLit 1; call "f" [V "opacity"; V "opacity"]]).
  split; [|repeat split; try reflexivity; discriminate].
  split; [reflexivity|]. split; [reflexivity|]. split.
  - intros f vs H. cbn. now destruct (String.eqb_spec f "f").
  - intros before after [H|[H ->]].
    + destruct before as [|b [|]]; try discriminate H. destruct b; cbn; reflexivity || (destruct after; reflexivity).
    + destruct before; [reflexivity | cbn in H; lia].
Qed.
Print Assumptions C64_let_refuted.

(** On an expression that the constructors of the IR can build (with [Let] and calls through
    values too) it raises nothing, and the result can be built and has the same type. *)
Lemma call_wf k t args : wf (Node k t args) -> k = KCall \/ k = KTargetCall ->
  k = KCall /\ exists f rest, args = Atom (PStr f) :: rest /\ Forall wf rest.
Proof.
  intros W K. inversion W; subst; unfold mkVar, mkLit, mkArithN, mkArith2, mkEq, mkCmp, mkBoolN, mkNot, mkImplies, mkIte, mkLet,
      mkCall, mkCallValue, mkTupleExpr, mkAxiom, mkChoose, mkFn in *;
    repeat match goal with
      | H : context [match ?l with _ => _ end] |- _ => destruct l eqn:?; simpl in H; try discriminate H
      | H : bindR ?m _ = Ok _ |- _ => destruct m eqn:?; cbn [bindR] in H; try discriminate H
      end; try discriminate;
    try match goal with H : Ok _ = Ok _ |- _ => injection H; clear H; intros; subst end;
    cbn [In] in *; try (exfalso; intuition (subst; discriminate)).
  split; [reflexivity|]. eauto.
Qed.
Theorem C64_total : forall fn new i e, Forall wf new -> wf e ->
  exists e', augment_arguments fn new i e = Ok e' /\ wf e' /\ type_of e' = type_of e.
Proof.
  intros fn new i e WN. induction e as [a|k t args IH] using expr_ind'; intros W; [now apply wf_not_atom in W|].
  destruct (map_args_wf (augment_arguments fn new i) W (fun a => eq_refl)) as (args' & M & F & R & W'); [exact IH|].
  assert (C : k = KCall \/ k = KTargetCall -> exists e', augment_arguments fn new i (Node k t args) = Ok e' /\ wf e' /\ type_of e' = type_of (Node k t args)).
  { intros K. destruct (call_wf _ _ _ W K) as (-> & f & rest & -> & _). cbn [augment_arguments mapR bindR] in *.
    destruct (mapR (augment_arguments fn new i) rest) as [p|] eqn:P; [|discriminate]. cbn [bindR] in *. injection M as <-.
    destruct (call_wf _ _ _ W' K) as (_ & f' & p' & E & WP). injection E as <- <-.
    destruct (String.eqb f fn); (eexists; split; [reflexivity|]; split; [|reflexivity]); (eapply wf_Call; [|reflexivity]); [|exact WP].
    rewrite !Forall_app. split; [|split; [exact WN|]].
    - rewrite <- (firstn_skipn i p) in WP. apply Forall_app in WP. tauto.
    - rewrite <- (firstn_skipn i p) in WP. apply Forall_app in WP. tauto. }
  destruct k; try (apply C; auto; fail); cbn [augment_arguments];
    try (exists (Node KVar t args); auto; fail); try (exists (Node KLit t args); auto; fail); try (exists (Node KNonTerm t args); auto; fail);
    rewrite M; cbn [bindR]; rewrite R; eexists; auto.
Qed.
Print Assumptions C64_total.
Example C64_total_case : wf (call "sel" [V "a"; IntLit 1]) /\ Forall wf [V "opacity"] /\
  augment_arguments "sel" [V "opacity"] 1 (call "sel" [V "a"; IntLit 1]) = Ok (call "sel" [V "a"; V "opacity"; IntLit 1]).
Proof. split; [eapply wf_Call; [|reflexivity]; repeat constructor|]. split; [repeat constructor | reflexivity]. Qed.
