(** Specialisation of higher-order functions preserves meaning
    (for the shapes of definitions described by [regular]). *)

From Coq Require Import String List ZArith Bool Lia.
From Verif Require Import Ast Semantics Dict IrModel IrProofs IrProofs3 IrProofs5 TopoModel SpecModel.
Import ListNotations.
Local Open Scope string_scope.
Local Open Scope list_scope.

Definition call_kind (k : kind) : Prop := k = KCall \/ k = KTargetCall.

(** classes whose arguments are all ordinary subexpressions *)
Definition op_kind (k : kind) : bool :=
  match k with
  | KVar | KNonTerm | KLit | KCall | KTargetCall | KCallValue | KLet | KFnDeclRec | KFnDecl | KTarget
  | KAssert | KConstraint | KSynth | KChoose | KAxiom => false
  | _ => true
  end.

Section Regular.
  Variable P : string -> Prop.                     (* the names that stand for functions *)
  Variable FO : string -> Prop.                    (* functions called without function arguments *)
  Variable HO : string -> nat -> string -> Prop.   (* function, position and name of its function argument *)
  Variable CV : string -> Prop.                    (* function variables that may be called *)

  (** Function-valued names are used only as the one function argument of a call
      allowed by [HO], or called directly. *)
  Inductive regular : expr -> Prop :=
  | reg_var x t : ~ P x -> regular (Node KVar t [Atom (PStr x)])
  | reg_lit t args : regular (Node KLit t args)
  | reg_fo k t f args : call_kind k -> FO f -> Forall plain_arg args -> regular (Node k t (Atom (PStr f) :: args))
  | reg_ho k t f pre q ts post : call_kind k -> HO f (List.length pre) q -> P q ->
      Forall plain_arg pre -> Forall plain_arg post ->
      regular (Node k t (Atom (PStr f) :: pre ++ mkVar q (TFn ts) :: post))
  | reg_cv t q ts args : CV q -> P q -> Forall regular args -> regular (Node KCallValue t (mkVar q (TFn ts) :: args))
  | reg_let t x tx e1 e2 : ~ P x -> regular e1 -> regular e2 -> regular (Node KLet t [mkVar x tx; e1; e2])
  | reg_op k t args : op_kind k = true -> Forall regular args -> regular (Node k t args)
  with plain_arg : expr -> Prop :=
  | plain_intro e t : regular e -> type_of e = Ok t -> is_fn_ty t = false -> plain_arg e.
End Regular.

Section DropLoop.
  Variable f : expr -> res expr.
  (** the argument loop of [filter_body] and [filter_fn_args] *)
  Fixpoint drop_fn_args (l : list expr) : res (list expr) :=
    match l with
    | [] => Ok []
    | a :: r => b <- is_fn_arg a ;;
                if b then drop_fn_args r else a' <- f a ;; r' <- drop_fn_args r ;; Ok (a' :: r')
    end.
End DropLoop.

Lemma filter_body_call : forall new old ic k t f rest, call_kind k ->
  filter_body new old ic (Node k t (Atom (PStr f) :: rest)) =
  (rest' <- drop_fn_args (filter_body new old ic) rest ;;
   mkCall (Atom (PStr (if String.eqb old f then new else f))) t rest').
Proof. intros new old ic k t f rest [->| ->]; reflexivity. Qed.

Lemma filter_body_op : forall new old ic k t args, op_kind k = true ->
  filter_body new old ic (Node k t args) = (args' <- mapR (filter_body new old ic) args ;; rebuild k t args').
Proof. intros new old ic k t args H. destruct k; try discriminate; reflexivity. Qed.

Lemma plain_is_fn_arg : forall P FO HO CV a, plain_arg P FO HO CV a -> is_fn_arg a = Ok false.
Proof.
  intros P FO HO CV a H. inversion H; subst. destruct a as [a|k t' args]; [discriminate|].
  cbn in *. injection H1 as ->. now rewrite H2.
Qed.

Lemma drop_plain : forall P FO HO CV f l, Forall (plain_arg P FO HO CV) l -> drop_fn_args f l = mapR f l.
Proof.
  induction 1 as [|a l A F IH]; [reflexivity|]. cbn [drop_fn_args mapR].
  rewrite (plain_is_fn_arg _ _ _ _ _ A). cbn [bindR]. destruct (f a); [|reflexivity]. cbn [bindR]. now rewrite IH.
Qed.

Lemma drop_ho : forall P FO HO CV f pre q ts post, Forall (plain_arg P FO HO CV) pre -> Forall (plain_arg P FO HO CV) post ->
  drop_fn_args f (pre ++ mkVar q (TFn ts) :: post) = mapR f (pre ++ post).
Proof.
  intros P FO HO CV f pre q ts post A B. induction A as [|a l X F IH]; cbn [app].
  - cbn. now apply (drop_plain P FO HO CV).
  - cbn [drop_fn_args mapR]. rewrite (plain_is_fn_arg _ _ _ _ _ X). cbn [bindR]. destruct (f a); [|reflexivity]. cbn [bindR]. now rewrite IH.
Qed.

Lemma plain_regular : forall P FO HO CV l, Forall (plain_arg P FO HO CV) l -> Forall (regular P FO HO CV) l.
Proof. intros P FO HO CV l. apply Forall_impl. intros a H. now inversion H. Qed.

Lemma mapO_app : forall A B (f : A -> option B) l m vs, mapO f (l ++ m) = Some vs ->
  exists a b, vs = a ++ b /\ mapO f l = Some a /\ mapO f m = Some b /\ List.length a = List.length l.
Proof.
  induction l as [|x l IH]; cbn; intros m vs H; [exists [], vs; auto|].
  destruct (f x) as [y|]; [|discriminate]. destruct (mapO f (l ++ m)) as [ys|] eqn:E; [|discriminate]. injection H as <-.
  destruct (IH _ _ E) as (a & b & -> & X & Y & L). exists (y :: a), b. rewrite X. cbn. rewrite L. auto.
Qed.

Lemma mapO_app_intro : forall A B (f : A -> option B) l m a b, mapO f l = Some a -> mapO f m = Some b -> mapO f (l ++ m) = Some (a ++ b).
Proof.
  induction l as [|x l IH]; cbn; intros m a b H1 H2; [injection H1 as <-; auto|].
  destruct (f x) as [y|]; [|discriminate]. destruct (mapO f l) as [ys|]; [|discriminate]. injection H1 as <-.
  rewrite (IH m ys b eq_refl H2). reflexivity.
Qed.

Section Sound.
  Variables (I J : interp) (P : string -> Prop) (FO : string -> Prop) (HO : string -> nat -> string -> Prop) (CV : string -> Prop).
  Variable G : string -> string.     (* the function a name stands for *)
  Variables (new old : string) (ic : option string).
  Definition rn (h : string) : string := if String.eqb old h then new else h.
  Hypothesis DIV : i_div I = i_div J.
  Hypothesis MOD : i_mod I = i_mod J.
  Hypothesis H_fo : forall h vs v, FO h -> i_call I h vs = Some v -> i_call J (rn h) vs = Some v.
  Hypothesis H_ho : forall h q a b v, HO h (List.length a) q -> i_call I h (a ++ VFn (G q) :: b) = Some v ->
    i_call J (rn h) (a ++ b) = Some v.
  Hypothesis H_cv : forall q, CV q -> ic = Some (G q) /\
    forall vs v, i_call I (G q) vs = Some v -> i_call J (G q) vs = Some v.

  Definition agree (r r' : env) : Prop := (forall x, ~ P x -> r x = r' x) /\ (forall q, P q -> r q = Some (VFn (G q))).

  Lemma agree_upd : forall r r' x v, ~ P x -> agree r r' -> agree (upd r x v) (upd r' x v).
  Proof.
    intros r r' x v N [A B]. split.
    - intros y Y. unfold upd. destruct (String.eqb x y); auto.
    - intros q Q. unfold upd. destruct (String.eqb x q) eqn:E; [apply String.eqb_eq in E; subst; contradiction|auto].
  Qed.

  Lemma mapO_sound : forall r r' args args' vs,
    Forall (fun a => regular P FO HO CV a -> forall a', filter_body new old ic a = Ok a' -> forall r r' v, agree r r' ->
        eval I r a = Some v -> eval J r' a' = Some v) args ->
    Forall (regular P FO HO CV) args -> agree r r' ->
    mapR (filter_body new old ic) args = Ok args' -> mapO (eval I r) args = Some vs -> mapO (eval J r') args' = Some vs.
  Proof.
    intros r r' args args' vs IH R A. revert args' vs. induction IH as [|a l Ha _ IHl]; intros args' vs M E; cbn in *.
    - injection M as <-. exact E.
    - inversion R; subst. destruct (filter_body new old ic a) as [a'|] eqn:F; [|discriminate]. cbn [bindR] in M.
      destruct (mapR _ l) as [l'|] eqn:ML; [|discriminate]. cbn [bindR] in M. injection M as <-.
      destruct (eval I r a) as [v|] eqn:EA; [|discriminate]. destruct (mapO (eval I r) l) as [ws|] eqn:EL; [|discriminate].
      injection E as <-. cbn. rewrite (Ha H1 a' eq_refl r r' v A EA). rewrite (IHl H2 _ _ eq_refl eq_refl). reflexivity.
  Qed.

  Lemma op_val_same : forall k vs v, op_kind k = true -> op_val I k vs = Some v -> op_val J k vs = Some v.
  Proof. intros k vs v K. destruct k; try discriminate; simpl; rewrite ?DIV, ?MOD; auto. Qed.

  Lemma filter_body_sound : forall e, regular P FO HO CV e -> forall e', filter_body new old ic e = Ok e' ->
    forall r r' v, agree r r' -> eval I r e = Some v -> eval J r' e' = Some v.
  Proof.
    induction e as [a|k t args IH] using expr_ind'; intros R e' F r r' v A E; [inversion R|].
    inversion R as [x t0 NP|t0 args0|k0 t0 f args0 CK HF PL|k0 t0 f pre q ts post CK HH PQ PL PM|t0 q ts args0 HC PQ RA|t0 x tx e1 e2 NP R1 R2|k0 t0 args0 OK RA]; subst.
    - cbn in F. injection F as <-. cbn in *. rewrite <- (proj1 A x NP). exact E.
    - cbn in F. injection F as <-. exact E.
    - (* first-order call *)
      rewrite filter_body_call in F by auto. rewrite (drop_plain P FO HO CV) in F by auto.
      destruct (mapR _ args0) as [args'|] eqn:M; [|discriminate]. cbn [bindR] in F. injection F as <-.
      inversion IH as [|? ? _ IH']; subst.
      assert (EV : match mapO (eval I r) args0 with Some vs => i_call I f vs | None => None end = Some v)
        by (destruct CK as [->| ->]; exact E).
      destruct (mapO (eval I r) args0) as [vs|] eqn:EM; [|discriminate]. cbn [eval].
      rewrite (mapO_sound r r' args0 args' vs IH' (plain_regular _ _ _ _ _ PL) A M EM).
      exact (H_fo f vs v HF EV).
    - (* higher-order call *)
      rewrite filter_body_call in F by auto. rewrite (drop_ho P FO HO CV) in F by auto.
      destruct (mapR _ (pre ++ post)) as [args'|] eqn:M; [|discriminate]. cbn [bindR] in F. injection F as <-.
      inversion IH as [|? ? _ IH']; subst. apply Forall_app in IH'. destruct IH' as [IHa IHb]. inversion IHb as [|? ? _ IHc]; subst.
      assert (EV : match mapO (eval I r) (pre ++ mkVar q (TFn ts) :: post) with Some vs => i_call I f vs | None => None end = Some v)
        by (destruct CK as [->| ->]; exact E).
      destruct (mapO (eval I r) (pre ++ mkVar q (TFn ts) :: post)) as [vs|] eqn:EM; [|discriminate].
      apply mapO_app in EM. destruct EM as (va & vb & -> & EA & EB & L). cbn [mapO] in EB.
      change (eval I r (mkVar q (TFn ts))) with (r q) in EB. rewrite (proj2 A q PQ) in EB.
      destruct (mapO (eval I r) post) as [vc|] eqn:EC; [|discriminate]. injection EB as <-.
      cbn [eval].
      assert (MO : mapO (eval I r) (pre ++ post) = Some (va ++ vc)) by (apply mapO_app_intro; auto).
      rewrite (mapO_sound r r' (pre ++ post) args' (va ++ vc)); auto.
      + apply (H_ho f q va vc v); [now rewrite L|exact EV].
      + apply Forall_app; auto.
      + apply Forall_app; split; eapply plain_regular; eauto.
    - (* call of a function value *)
      cbn [filter_body] in F. destruct (mapR _ args0) as [args'|] eqn:M; [|discriminate]. cbn [bindR] in F.
      pose proof (Forall_inv_tail IH) as IH'.
      destruct (H_cv q HC) as [IC CALL].
      assert (F' : Node KCall t (Atom (PStr (G q)) :: args') = e') by (destruct ic; [injection IC as ->|discriminate]; now injection F).
      rewrite <- F'. cbn [eval mapO] in E. change (eval I r (mkVar q (TFn ts))) with (r q) in E.
      rewrite (proj2 A q PQ) in E. destruct (mapO (eval I r) args0) as [vs|] eqn:EM; [|discriminate].
      cbn [op_val] in E. cbn [eval].
      rewrite (mapO_sound r r' args0 args' vs IH' RA A M EM). now apply CALL.
    - (* let *)
      cbn [filter_body mapR] in F. change (filter_body new old ic (mkVar x tx)) with (Ok (mkVar x tx)) in F. cbn [bindR] in F.
      destruct (filter_body new old ic e1) as [e1'|] eqn:F1; [|discriminate]. cbn [bindR] in F.
      destruct (filter_body new old ic e2) as [e2'|] eqn:F2; [|discriminate]. cbn [bindR] in F.
      inversion IH as [|? ? _ IHa]; subst. inversion IHa as [|? ? IH1 IHb]; subst. inversion IHb as [|? ? IH2 _]; subst.
      rewrite (rebuild_eval J r' KLet t _ F). cbn in E. cbn.
      destruct (eval I r e1) as [v1|] eqn:E1; [|discriminate].
      rewrite (IH1 R1 e1' F1 r r' v1 A E1). eapply IH2; eauto using agree_upd.
    - (* other operators *)
      rewrite filter_body_op in F by auto. destruct (mapR _ args) as [args'|] eqn:M; [|discriminate]. cbn [bindR] in F.
      rewrite (rebuild_eval J r' k t _ F).
      assert (GEN : match mapO (eval I r) args with Some vs => op_val I k vs | None => None end = Some v ->
                    match mapO (eval J r') args' with Some vs => op_val J k vs | None => None end = Some v).
      { destruct (mapO (eval I r) args) as [vs|] eqn:EM; [|discriminate]. intros OV.
        rewrite (mapO_sound r r' args args' vs IH RA A M EM). now apply op_val_same. }
      destruct k; try discriminate; try (exact (GEN E)).
      (* ite *)
      cbn [eval] in E |- *. destruct args as [|c [|x [|y [|]]]]; try discriminate.
      inversion IH as [|? ? IHc IHa]; subst. inversion IHa as [|? ? IHx IHb]; subst. inversion IHb as [|? ? IHy _]; subst.
      inversion RA as [|? ? Rc Ra]; subst. inversion Ra as [|? ? Rx Rb]; subst. inversion Rb as [|? ? Ry _]; subst.
      cbn [mapR] in M. destruct (filter_body new old ic c) as [c'|] eqn:Fc; [|discriminate]. cbn [bindR] in M.
      destruct (filter_body new old ic x) as [x'|] eqn:Fx; [|discriminate]. cbn [bindR] in M.
      destruct (filter_body new old ic y) as [y'|] eqn:Fy; [|discriminate]. cbn [bindR] in M. injection M as <-.
      destruct (eval I r c) as [vc|] eqn:Ec; [|discriminate]. rewrite (IHc Rc c' eq_refl r r' vc A Ec).
      destruct vc as [|[]| | |]; try discriminate; [eapply IHx | eapply IHy]; eauto.
  Qed.
End Sound.
