(** Functions that are arguments become their names. *)

From Coq Require Import String List ZArith Bool Lia Permutation.
From Verif Require Import Ast IrProofs Dict Semantics SmtPrelude SmtProofs RktModel RktProofs ListOps LibSem ObjModel Properties_Rkt Properties_Obj LmModel LmSem LmProofs LmProofs2 LmProofs3 LmProofs4.
Import ListNotations.
Local Open Scope string_scope.
Local Open Scope list_scope.

Definition is_var (e : expr) : bool := match e with Node KVar _ [Atom (PStr _)] => true | _ => false end.

(** what the parser makes when no object is left in it *)
Fixpoint made (e : expr) : Prop :=
  let all := fix all (l : list expr) : Prop := match l with [] => True | x :: r => made x /\ all r end in
  match e with
  | Atom _ => False
  | Node k t args =>
      match k with
      | KVar => is_var e = true
      | KLit => exists z, t = TInt /\ args = [Atom (PInt z)]
      | KCall => match args with Atom (PStr _) :: rest => all rest | _ => False end
      | KFnDeclRec =>
          match args with
          | Atom (PStr _) :: b :: rest =>
              made b /\ forallb is_var rest = true /\ exists r ts, t = TFn (r :: ts) /\ mapR type_of rest = Ok ts
          | _ => False
          end
      | KAdd | KSub | KMul | KDiv | KMod | KEq | KLt | KLe | KGt | KGe | KAnd | KOr | KNot | KIte =>
          all args /\ rebuild k t args = Ok (Node k t args)
      | _ => False
      end
  end.
Fixpoint all_made (l : list expr) : Prop := match l with [] => True | x :: r => made x /\ all_made r end.
Lemma all_made_F l : all_made l <-> Forall made l.
Proof. induction l as [|x l IH]; cbn; split; intros Q; [constructor|exact Logic.I|constructor; tauto|inversion Q; tauto]. Qed.

(** calls with a function among their arguments: name of the called function, name of the argument *)
Fixpoint pend (e : expr) : list (string * string) :=
  match e with
  | Atom _ => []
  | Node k t args =>
      (if is_call e then flat_map (fun a => if is_decl a then [(decl_name e, decl_name a)] else []) args else []) ++ flat_map pend args
  end.

Definition okr (p : string * string) (e e' : expr) : Prop :=
  made e' /\ erase e' = erase e /\ type_of e' = type_of e /\ is_decl e' = is_decl e /\ decl_name e' = decl_name e /\
  incl (pend e') (pend e) /\ ~ In p (pend e').

Lemma mapR_okr p l (f : expr -> res expr) : Forall (fun a => exists a', f a = Ok a' /\ okr p a a') l ->
  exists l', mapR f l = Ok l' /\ Forall2 (okr p) l l'.
Proof. induction 1 as [|a l (a' & E & O) F (l' & E' & F')]; cbn; [eauto|]. rewrite E, E'. cbn. eauto. Qed.
Lemma F2_types p l l' : Forall2 (okr p) l l' -> mapR type_of l' = mapR type_of l.
Proof. induction 1 as [|a a' l l' (_ & _ & T & _) F IH]; cbn; [reflexivity|]. now rewrite T, IH. Qed.
Lemma check_types_F2 p t l l' : Forall2 (okr p) l l' -> check_types t l' = check_types t l.
Proof. induction 1 as [|a a' l l' (_ & _ & T & _) F IH]; cbn; [reflexivity|]. now rewrite T, IH. Qed.
Definition simple (k : kind) : bool :=
  match k with KAdd | KSub | KMul | KDiv | KMod | KEq | KLt | KLe | KGt | KGe | KAnd | KOr | KNot | KIte => true | _ => false end.
Lemma okr_ty p a a' : okr p a a' -> type_of a' = type_of a.
Proof. intros O. apply O. Qed.
Lemma rebuild_types p k t l l' : Forall2 (okr p) l l' -> simple k = true -> rebuild k t l = Ok (Node k t l) -> rebuild k t l' = Ok (Node k t l').
Proof.
  intros F K R.
  assert (AN : forall k, mkArithN k l = Ok (Node k t l) -> mkArithN k l' = Ok (Node k t l')).
  { intros k0 R0. pose proof (fun t => check_types_F2 p t _ _ F) as C. unfold mkArithN in *. destruct F as [|a a' l l' Oa F]; [discriminate|]. rewrite (okr_ty _ _ _ Oa).
    destruct (type_of a); [|discriminate]. cbn [bindR] in *. rewrite C. destruct (check_types _ _); [|discriminate]. cbn [bindR] in *. injection R0 as <-. reflexivity. }
  assert (A2 : forall k, mkArith2 k l = Ok (Node k t l) -> mkArith2 k l' = Ok (Node k t l')).
  { intros k0 R0. pose proof (fun t => check_types_F2 p t _ _ F) as C. unfold mkArith2 in *. destruct F as [|a a' l l' Oa F]; [discriminate|]. destruct F as [|b b' l l' Ob F]; [discriminate|]. destruct F; [|discriminate]. rewrite (okr_ty _ _ _ Oa).
    destruct (type_of a); [|discriminate]. cbn [bindR] in *. rewrite C. destruct (check_types _ _); [|discriminate]. cbn [bindR] in *. injection R0 as <-. reflexivity. }
  assert (CM : forall k, mkCmp k l = Ok (Node k t l) -> mkCmp k l' = Ok (Node k t l')).
  { intros k0 R0. unfold mkCmp in *. destruct F as [|a a' l l' Oa F]; [discriminate|]. destruct F as [|b b' l l' Ob F]; [discriminate|]. destruct F; [|discriminate]. rewrite (okr_ty _ _ _ Oa), (okr_ty _ _ _ Ob).
    destruct (type_of a); [|discriminate]. destruct (type_of b); [|discriminate]. cbn [bindR] in *. destruct (ty_eqb _ _); [|discriminate]. injection R0 as <-. reflexivity. }
  assert (BN : forall k, mkBoolN k l = Ok (Node k t l) -> mkBoolN k l' = Ok (Node k t l')).
  { intros k0 R0. pose proof (check_types_F2 p TBool _ _ F) as C. unfold mkBoolN in *. destruct F as [|a a' l l' Oa F]; [discriminate|]. rewrite C. destruct (check_types _ _); [|discriminate]. cbn [bindR] in *. injection R0 as <-. reflexivity. }
  destruct k; try discriminate K; cbn [rebuild] in *; auto.
  - destruct F as [|a a' l l' Oa F]; [discriminate|]. destruct F as [|b b' l l' Ob F]; [discriminate|]. destruct F; [|discriminate]. cbn in *. injection R as <-. reflexivity.
  - pose proof (check_types_F2 p TBool _ _ F) as C. unfold mkNot in *. destruct F as [|a a' l l' Oa F]; [discriminate|]. destruct F; [|discriminate]. rewrite C. destruct (check_types _ _); [|discriminate]. cbn [bindR] in *. injection R as <-. reflexivity.
  - unfold mkIte in *. destruct F as [|a a' l l' Oa F]; [discriminate|]. destruct F as [|b b' l l' Ob F]; [discriminate|]. destruct F as [|c c' l l' Oc F]; [discriminate|]. destruct F; [|discriminate].
    rewrite (okr_ty _ _ _ Oa), (okr_ty _ _ _ Ob), (okr_ty _ _ _ Oc). destruct (type_of a); [|discriminate]. cbn [bindR] in *. destruct (negb _); [discriminate|].
    destruct (type_of b); [|discriminate]. destruct (type_of c); [|discriminate]. cbn [bindR] in *. destruct (ty_eqb _ _); [|discriminate]. injection R as <-. reflexivity.
Qed.

Lemma F2_erase p l l' : Forall2 (okr p) l l' -> map erase l' = map erase l.
Proof. induction 1 as [|a a' l l' (_ & T & _) F IH]; cbn; [reflexivity|]. now rewrite T, IH. Qed.
Lemma F2_made p l l' : Forall2 (okr p) l l' -> all_made l'.
Proof. induction 1 as [|a a' l l' (T & _) F IH]; cbn; auto. Qed.
Lemma F2_pend p l l' : Forall2 (okr p) l l' -> incl (flat_map pend l') (flat_map pend l) /\ ~ In p (flat_map pend l').
Proof.
  induction 1 as [|a a' l l' (_ & _ & _ & _ & _ & T & N) F [IH1 IH2]]; cbn; [split; [apply incl_refl|tauto]|]. split.
  - apply incl_app; [apply incl_appl, T|apply incl_appr, IH1].
  - rewrite in_app_iff. tauto.
Qed.
Lemma vars_same p l : forallb is_var l = true -> forall (f : expr -> res expr), (forall a, is_decl a = false -> f a = replace_in_call p a) -> mapR f l = Ok l.
Proof.
  induction l as [|a l IH]; cbn; intros V f HF; [reflexivity|]. apply andb_true_iff in V as [V1 V2]. rewrite (IH V2 f HF).
  destruct a as [|[] t [|[[]|] [|]]]; try discriminate. rewrite HF by reflexivity. reflexivity.
Qed.
Lemma vars_pend l : forallb is_var l = true -> flat_map pend l = [].
Proof. induction l as [|a l IH]; cbn; [reflexivity|]. intros V. apply andb_true_iff in V as [V1 V2]. rewrite (IH V2). destruct a as [|[] t [|[[]|] [|]]]; try discriminate. reflexivity. Qed.

(** one argument of a call *)
Definition heads (c : string) (l : list expr) : list (string * string) :=
  flat_map (fun a => if is_decl a then [(c, decl_name a)] else []) l.
Lemma rep_args p c l : Forall (fun a => exists a', replace_in_call p a = Ok a' /\ okr p a a') l ->
  exists l', mapR (fun a => if is_decl a && String.eqb (decl_name a) (snd p) && String.eqb c (fst p)
                            then ta <- type_of a ;; Ok (mkVar (snd p) ta) else replace_in_call p a) l = Ok l' /\
    all_made l' /\ map aerase l' = map aerase l /\ incl (flat_map pend l') (flat_map pend l) /\ ~ In p (flat_map pend l') /\
    incl (heads c l') (heads c l) /\ ~ In p (heads c l').
Proof.
  induction 1 as [|a l (a' & E & O) F (l' & E' & M & AE & P1 & P2 & H1 & H2)]; [exists []; cbn; repeat split; auto using incl_refl|].
  cbn [mapR]. destruct (is_decl a && String.eqb (decl_name a) (snd p) && String.eqb c (fst p)) eqn:Q.
  - rewrite !andb_true_iff in Q. destruct Q as [[Q1 Q2] Q3]. apply String.eqb_eq in Q2. destruct a as [|k t args]; [discriminate|]. cbn [type_of bindR]. rewrite E'. cbn [bindR].
    exists (mkVar (snd p) t :: l'). split; [reflexivity|]. split; [split; [reflexivity|exact M]|]. split; [cbn [map]; rewrite AE; f_equal; unfold aerase; rewrite Q1, Q2; reflexivity|].
    cbn [flat_map heads]. split; [apply incl_appr, P1|]. split; [exact P2|]. cbn [is_decl mkVar app]. split; [apply incl_appr, H1|exact H2].
  - rewrite E, E'. cbn [bindR]. exists (a' :: l'). destruct O as (Ma & Ea & Ta & Da & Na & Pa & Qa). split; [reflexivity|]. split; [split; auto|].
    split; [cbn [map]; rewrite AE; f_equal; unfold aerase; rewrite Da, Na, Ea; destruct (is_decl a) eqn:DA; [|reflexivity]; destruct a as [|k t args], a' as [|k' t' args']; try discriminate; cbn in Ta; congruence|].
    cbn [flat_map]. split; [apply incl_app; [apply incl_appl, Pa|apply incl_appr, P1]|]. split; [rewrite in_app_iff; tauto|].
    unfold heads in *. cbn [flat_map]. rewrite Da, Na. split; [apply incl_app; [apply incl_appl, incl_refl|apply incl_appr, H1]|]. rewrite in_app_iff. intros [X|X]; [|tauto].
    destruct (is_decl a); [|contradiction]. destruct X as [X|[]]. rewrite <- X in Q. cbn [fst snd] in Q. rewrite !String.eqb_refl in Q. discriminate.
Qed.

Lemma replace_ok p : forall e, made e -> exists e', replace_in_call p e = Ok e' /\ okr p e e'.
Proof.
  induction e as [a|k t args IH] using expr_ind'; intros M; [contradiction|].
  assert (SIMPLE : simple k = true -> exists e', replace_in_call p (Node k t args) = Ok e' /\ okr p (Node k t args) e').
  { intros K. assert (MA : all_made args /\ rebuild k t args = Ok (Node k t args)) by (destruct k; try discriminate K; exact M). destruct MA as [MA RB].
    assert (FA : Forall (fun a => exists a', replace_in_call p a = Ok a' /\ okr p a a') args).
    { apply all_made_F in MA. revert IH MA. clear. induction args as [|a args IHa]; intros F1 F2; constructor; inversion F1; inversion F2; subst; auto. }
    destruct (mapR_okr p args (replace_in_call p) FA) as (args' & E & F2). exists (Node k t args'). split.
    - assert (EQ : replace_in_call p (Node k t args) = (args' <- mapR (replace_in_call p) args ;; rebuild k t args')) by (destruct k; try discriminate K; reflexivity).
      rewrite EQ, E. cbn [bindR]. eapply rebuild_types; eauto.
    - assert (NC : forall l, is_call (Node k t l) = false /\ is_decl (Node k t l) = false) by (intros l; destruct k; try discriminate K; auto).
      split; [|split; [|split; [|split; [|split; [|split]]]]].
      + pose proof (rebuild_types p k t _ _ F2 K RB) as RB'. pose proof (F2_made _ _ _ F2) as M'. destruct k; try discriminate K; (split; [exact M'|exact RB']).
      + rewrite !erase_node by apply NC. f_equal. now apply (F2_erase p).
      + reflexivity.
      + now rewrite (proj2 (NC args)), (proj2 (NC args')).
      + clear - F2 MA. destruct F2 as [|a a' l l' Oa F]; [reflexivity|]. destruct MA as [Ma _]. destruct Oa as (Ma' & _). cbn [decl_name]. destruct a, a'; try contradiction; reflexivity.
      + cbn [pend]. rewrite (proj1 (NC args)), (proj1 (NC args')). cbn [app]. apply (F2_pend p _ _ F2).
      + cbn [pend]. rewrite (proj1 (NC args')). cbn [app]. apply (F2_pend p _ _ F2). }
  destruct k; try (now apply SIMPLE); try contradiction.
  - (* variable *) exists (Node KVar t args). split; [reflexivity|]. split; [exact M|]. destruct args as [|[[]|] [|]]; try discriminate M. cbn. repeat split; auto using incl_refl.
  - (* literal *) exists (Node KLit t args). split; [reflexivity|]. split; [exact M|]. destruct M as (z & -> & ->). cbn. repeat split; auto using incl_refl.
  - (* call *) cbn [made] in M. destruct args as [|[[f| | |]|] rest]; try contradiction. change (all_made rest) in M.
    inversion IH as [|? ? _ IHr]; subst. assert (FA : Forall (fun a => exists a', replace_in_call p a = Ok a' /\ okr p a a') rest).
    { apply all_made_F in M. revert IHr M. clear. induction rest as [|a args IHa]; intros F1 F2; constructor; inversion F1; inversion F2; subst; auto. }
    destruct (rep_args p f rest FA) as (l' & E & M' & AE & P1 & P2 & H1 & H2). exists (Node KCall t (Atom (PStr f) :: l')). split; [cbn [replace_in_call decl_name]; rewrite E; reflexivity|].
    split; [exact M'|]. split; [rewrite !erase_call, AE; reflexivity|]. split; [reflexivity|]. split; [reflexivity|]. split; [reflexivity|].
    cbn [pend is_call decl_name flat_map is_decl app]. fold (heads f l') (heads f rest). split; [apply incl_app; [apply incl_appl, H1|apply incl_appr, P1]|]. rewrite in_app_iff. tauto.
  - (* declaration *) cbn [made] in M. destruct args as [|[[f| | |]|] [|b rest]]; try contradiction. destruct M as (Mb & V & r & ts & -> & TS).
    inversion IH as [|? ? _ IHr]; subst. inversion IHr as [|? ? IHb _]; subst. destruct (IHb Mb) as (b' & Eb & Ob). exists (Node KFnDeclRec (TFn (r :: ts)) (Atom (PStr f) :: b' :: rest)).
    split.
    { cbn [replace_in_call]. rewrite (vars_same p rest V).
      - cbn [bindR]. rewrite Eb. cbn [bindR fn_return_type]. unfold mkFn. rewrite TS. reflexivity.
      - intros a ->. reflexivity. }
    destruct Ob as (Mb' & E' & T' & _ & _ & Pi & Pn). split; [cbn [made]; split; [exact Mb'|]; split; [exact V|]; eauto|].
    split; [rewrite !erase_node by reflexivity; cbn [map]; now rewrite E'|]. split; [reflexivity|]. split; [reflexivity|]. split; [reflexivity|].
    cbn [pend is_call flat_map app]. rewrite (vars_pend rest V), !app_nil_r. auto.
Qed.

Lemma no_pend e : made e -> pend e = [] -> erase e = e.
Proof.
  induction e as [a|k t args IH] using expr_ind'; intros M PN; [reflexivity|]. cbn [pend] in PN. apply app_eq_nil in PN as [P1 P2].
  assert (ALL : forall l, Forall (fun e => made e -> pend e = [] -> erase e = e) l -> all_made l -> flat_map pend l = [] -> map erase l = l).
  { clear. induction l as [|a l IHl]; intros F M P; [reflexivity|]. inversion F; subst. destruct M. cbn in P. apply app_eq_nil in P as [? ?]. cbn. rewrite H1, IHl; auto. }
  destruct k; try contradiction; try (rewrite erase_node by reflexivity; f_equal; apply ALL; auto; apply M).
  - destruct args as [|[[]|] [|]]; try discriminate M. reflexivity.
  - destruct M as (z & -> & ->). reflexivity.
  - cbn [made] in M. destruct args as [|[[f| | |]|] rest]; try contradiction. change (all_made rest) in M. rewrite erase_call. do 2 f_equal. inversion IH as [|? ? _ IHr]; subst.
    cbn [is_call decl_name flat_map is_decl app pend] in P1, P2. revert M P1 P2 IHr. clear. induction rest as [|a l IHl]; intros M P1 P2 F; [reflexivity|]. inversion F; subst. destruct M as [Ma Ml]. cbn in P1, P2.
    apply app_eq_nil in P1 as [A1 A2]. apply app_eq_nil in P2 as [B1 B2]. cbn. rewrite IHl by auto. f_equal. unfold aerase. destruct (is_decl a); [discriminate|auto].
  - cbn [made] in M. destruct args as [|[[f| | |]|] [|b rest]]; try contradiction. destruct M as (Mb & V & _). rewrite erase_node by reflexivity. cbn [map flat_map pend app] in *. apply app_eq_nil in P2 as [B1 B2].
    inversion IH as [|? ? _ IHr]; subst. inversion IHr as [|? ? IHb _]; subst. rewrite (IHb Mb B1). do 3 f_equal. clear - V. induction rest as [|a l IHl]; [reflexivity|]. cbn in V. apply andb_true_iff in V as [V1 V2]. cbn. rewrite (IHl V2). destruct a as [|[] t [|[[]|] [|]]]; try discriminate. reflexivity.
Qed.

Theorem replace_all ps : forall e, made e -> incl (pend e) ps -> replace_in_calls ps e = Ok (erase e).
Proof.
  induction ps as [|p ps IH]; intros e M PI.
  - cbn. rewrite no_pend; auto. destruct (pend e) as [|x l]; [reflexivity|]. destruct (PI x (or_introl eq_refl)).
  - cbn. destruct (replace_ok p e M) as (e' & -> & M' & E' & _ & _ & _ & P1 & P2). cbn [bindR]. rewrite IH; [now rewrite E'|exact M'|].
    intros q Q. destruct (PI q (P1 q Q)) as [<-|X]; [contradiction|exact X].
Qed.

(** ** What the parser makes *)
Section Made.
  Variables (sigs : dict psig) (gs : list string).
  Definition good (e : expr) (s : pst) : Prop := made (unobj e) /\ incl (pend (unobj e)) (s_calls s).
  Definition lam (n : pnode) : bool := match n with NLambda _ _ _ => true | _ => false end.
  Definition Q (n : pnode) : Prop := forall arg vars s e s', parse sigs n s = (Ok e, s') -> tidy (unobj e) = true ->
    scoped sigs gs vars arg n = true -> good e s' /\ (lam n = false -> is_decl (unobj e) = false).
  Lemma good_grows e s s' : good e s -> grows s s' -> good e s'.
  Proof. intros [M P1] [_ G]. split; [exact M|eapply incl_tran; eauto]. Qed.
  Lemma good_simple k t l s : simple k = true -> Forall (fun e => good e s /\ unobj e = e) l -> rebuild k t l = Ok (Node k t l) -> good (Node k t l) s.
  Proof.
    intros K F RB. assert (U : unobj (Node k t l) = Node k t l) by (destruct k; try discriminate K; reflexivity). split; rewrite U.
    - assert (M : all_made l) by (apply all_made_F; eapply Forall_impl; [|exact F]; intros a [[Ma _] Ua]; now rewrite Ua in Ma). destruct k; try discriminate K; (split; [exact M|exact RB]).
    - assert (NC : is_call (Node k t l) = false) by (destruct k; try discriminate K; reflexivity). cbn [pend]. rewrite NC. cbn [app]. clear - F. induction F as [|a l [[_ Pa] Ua] F IH]; cbn; [apply incl_nil_l|]. rewrite Ua in Pa. apply incl_app; auto.
  Qed.
  Lemma good_call f t l s : Forall (fun e => good e s) l -> (forall e, In e l -> is_decl (unobj e) = true -> In (f, decl_name (unobj e)) (s_calls s)) ->
    good (Node KCall t (Atom (PStr f) :: map unobj l)) s.
  Proof.
    intros F DN. split; cbn [unobj].
    - cbn [made]. change (all_made (map unobj l)). apply all_made_F. rewrite Forall_forall in F |- *. intros x X. apply in_map_iff in X as (y & <- & Y). apply (F y Y).
    - cbn [pend is_call decl_name flat_map is_decl app]. apply incl_app.
      + intros q X. apply in_flat_map in X as (x & X & XQ). apply in_map_iff in X as (y & <- & Y). destruct (is_decl (unobj y)) eqn:DY; [|contradiction]. destruct XQ as [<-|[]]. auto.
      + intros q X. apply in_flat_map in X as (x & X & XQ). apply in_map_iff in X as (y & <- & Y). rewrite Forall_forall in F. exact (proj2 (F y Y) q XQ).
  Qed.
  Lemma plain_call f t (es : list expr) s : Forall (fun e => good e s /\ is_decl (unobj e) = false) es -> good (Node KCall t (Atom (PStr f) :: map unobj es)) s.
  Proof.
    intros F. apply good_call; [eapply Forall_impl; [|exact F]; cbn; tauto|]. intros e IN DE. rewrite Forall_forall in F. destruct (F e IN). congruence.
  Qed.

  Lemma Q_val n vars s e s' : Q n -> parse sigs n s = (Ok e, s') -> tidy (unobj e) = true -> scoped sigs gs vars false n = true -> good e s' /\ is_decl (unobj e) = false.
  Proof. intros H E T S1. destruct (H false vars s e s' E T S1) as [G N]. split; [exact G|]. apply N. destruct n; try reflexivity. cbn [scoped] in S1. destruct (ir_ty t) as [[[| | | | | | |[|]]|]|]; discriminate. Qed.
  Lemma q_name x t : Q (NName x t).
  Proof.
    intros arg vars s e s' E TD SC. cbn -[bindM] in E. apply bindM_ok in E as (o & s1 & E1 & E). destruct o as [t'|]; [|discriminate]. apply lift_ok in E as [E ->]. apply named_is in E. subst e.
    split; [split; [reflexivity|apply incl_nil_l]|reflexivity].
  Qed.
  Lemma q_int z : Q (NInt z).
  Proof. intros arg vars s e s' E TD SC. apply ret_ok in E as [-> ->]. split; [split; [cbn; eauto|apply incl_nil_l]|reflexivity]. Qed.
  Lemma q_unary op a : Q (NUnary op a).
  Proof.
    intros arg vars s e s' E TD SC. exfalso. cbn -[bindM unary_node] in E. destruct (String.eqb op "-") eqn:O; [|discriminate].
    apply bindM_ok in E as (ea & s1 & E1 & E). apply lift_ok in E as [E ->]. unfold unary_node in E. rewrite O in E. cbn [bindR] in E.
    apply bindR_ok in E as (t & T & E). destruct (ty_eqb t TInt); [|discriminate]. apply arith2_ok in E. subst e. discriminate TD.
  Qed.
  Lemma q_op op a b : Q a -> Q b -> Q (NOp op a b).
  Proof.
    intros Qa Qb arg vars s e s' E TD SC. cbn [scoped] in SC. apply andb_true_iff in SC as [Sa Sb].
    cbn -[bindM op_node] in E. apply bindM_ok in E as (el & s1 & E1 & E). apply bindM_ok in E as (er & s2 & E2 & E). apply lift_ok in E as [E ->].
    pose proof (grows_of _ _ _ _ (mono_parse sigs b) E2) as G.
    assert (BOTH : tidy (unobj el) = true -> tidy (unobj er) = true -> Forall (fun e => good e s2 /\ is_decl (unobj e) = false) [el; er]).
    { intros T1 T2. destruct (Q_val a _ _ _ _ Qa E1 T1 Sa) as [G1 N1]. destruct (Q_val b _ _ _ _ Qb E2 T2 Sb) as [G2 N2]. constructor; [split; [eapply good_grows; eauto|exact N1]|constructor; [split; assumption|constructor]]. }
    assert (PLAIN : forall k t, simple k = true -> e = Node k t [el; er] -> rebuild k t [el; er] = Ok (Node k t [el; er]) -> good e s2 /\ (false = false -> is_decl (unobj e) = false)).
    { intros k t K -> RB. assert (U : unobj (Node k t [el; er]) = Node k t [el; er]) by (destruct k; try discriminate K; reflexivity). rewrite U in TD. cbn [tidy forallb] in TD.
      apply andb_true_iff in TD as [TD _]. apply andb_true_iff in TD as [T1 TD]. apply andb_true_iff in TD as [T2 _]. pose proof (tidy_unobj _ T1) as U1. pose proof (tidy_unobj _ T2) as U2.
      split; [|intros _; rewrite U; destruct k; try discriminate K; reflexivity]. apply good_simple; auto. rewrite <- U1 in T1. rewrite <- U2 in T2. specialize (BOTH T1 T2). inversion BOTH as [|? ? [G1 _] B2]; subst. inversion B2 as [|? ? [G2 _] _]; subst. constructor; [split; assumption|constructor; [split; assumption|constructor]]. }
    unfold op_node in E. apply bindR_ok in E as (tl & Tl & E). apply bindR_ok in E as (tr & Tr & E).
    destruct (ty_eqb tl TInt && ty_eqb tr TInt).
    - unfold int_node in E.
      destruct (String.eqb op "+"); [pose proof (arithN_ok _ _ _ _ E) as X; apply (PLAIN KAdd TInt eq_refl X); now rewrite X in E|].
      destruct (String.eqb op "-"); [pose proof (arith2_ok _ _ _ _ E) as X; apply (PLAIN KSub TInt eq_refl X); now rewrite X in E|].
      destruct (String.eqb op "*"); [pose proof (arithN_ok _ _ _ _ E) as X; apply (PLAIN KMul TInt eq_refl X); now rewrite X in E|].
      destruct (String.eqb op "//" || String.eqb op "/"); [pose proof (arith2_ok _ _ _ _ E) as X; apply (PLAIN KDiv TInt eq_refl X); now rewrite X in E|].
      destruct (String.eqb op "%"); [pose proof (arith2_ok _ _ _ _ E) as X; apply (PLAIN KMod TInt eq_refl X); now rewrite X in E|discriminate].
    - destruct (flat_list tl && flat_list tr).
      + destruct (String.eqb op "+"); [|discriminate]. cbn in E. injection E as <-. cbn -[smem] in TD. rewrite !andb_true_iff in TD. destruct TD as [[T1 [T2 _]] _]. split; [|reflexivity].
        destruct (plain_call "list_concat" (TList TInt) [el; er] s2 (BOTH T1 T2)) as [M1 M2]. split; [exact M1|exact M2].
      + destruct (ty_eqb tl TBool && ty_eqb tr TBool); [|discriminate].
        destruct (String.eqb op "and"); [pose proof (proj1 (boolN_ok _ _ _ _ E)) as X; apply (PLAIN KAnd TBool eq_refl X); now rewrite X in E|].
        destruct (String.eqb op "or"); [pose proof (proj1 (boolN_ok _ _ _ _ E)) as X; apply (PLAIN KOr TBool eq_refl X); now rewrite X in E|discriminate].
  Qed.
  Lemma q_list l t : Q (NList l t).
  Proof.
    intros arg vars s e s' E TD SC. apply lift_ok in E as [E ->]. unfold list_node in E. apply bindR_ok in E as (o & T & E). destruct o as [[]|]; try discriminate. cbn in E. injection E as <-.
    split; [|reflexivity]. split; [exact Logic.I|apply incl_nil_l].
  Qed.
  Lemma q_cond c a b : Q c -> Q a -> Q b -> Q (NCond c a b).
  Proof.
    intros Qc Qa Qb arg vars s e s' E TD SC. cbn [scoped] in SC. apply andb_true_iff in SC as [SC Sb]. apply andb_true_iff in SC as [Sc Sa].
    cbn -[bindM cond_node] in E. apply bindM_ok in E as (ec & s1 & E1 & E). apply bindM_ok in E as (ea & s2 & E2 & E). apply bindM_ok in E as (eb & s3 & E3 & E). apply lift_ok in E as [E ->].
    pose proof (grows_of _ _ _ _ (mono_parse sigs b) E3) as G3. pose proof (grows_of _ _ _ _ (mono_parse sigs a) E2) as G2. pose proof (grows_trans _ _ _ G2 G3) as G1.
    unfold cond_node in E. apply bindR_ok in E as (t & Ta & E). apply bindR_ok in E as (i & Ti & E). apply bindR_ok in E as (o & To & E). injection E as <-. apply create_src in To. rewrite To in *. clear To o.
    assert (W : exists t', i = Node KIte t' [unobj ec; unobj ea; unobj eb] /\ rebuild KIte t' [unobj ec; unobj ea; unobj eb] = Ok i).
    { cbn [rebuild]. rewrite Ti. unfold mkIte in Ti. apply bindR_ok in Ti as (tc & _ & Ti). destruct (negb _); [discriminate|]. apply bindR_ok in Ti as (ta & _ & Ti). apply bindR_ok in Ti as (tb & _ & Ti). destruct (ty_eqb ta tb); [|discriminate]. injection Ti as <-. eauto. }
    destruct W as (t' & -> & RB). cbn [unobj tidy forallb] in TD. rewrite !andb_true_iff in TD. destruct TD as [(T1 & T2 & T3 & _) _]. split; [|reflexivity].
    destruct (Q_val c _ _ _ _ Qc E1 T1 Sc) as [X1 _]. destruct (Q_val a _ _ _ _ Qa E2 T2 Sa) as [X2 _]. destruct (Q_val b _ _ _ _ Qb E3 T3 Sb) as [X3 _].
    apply (good_grows _ _ s3) in X1; [|exact G1]. apply (good_grows _ _ s3) in X2; [|exact G3].
    apply good_simple; [reflexivity| |exact RB]. pose proof (tidy_unobj _ T1) as U1. pose proof (tidy_unobj _ T2) as U2. pose proof (tidy_unobj _ T3) as U3.
    unfold good in *. repeat (apply Forall_cons || apply Forall_nil); rewrite ?U1, ?U2, ?U3; split; auto.
  Qed.
  Lemma clause_made op ea eb c s : clause op ea eb = Ok c -> tidy c = true -> (tidy ea = true -> good ea s) -> (tidy eb = true -> good eb s) -> good c s /\ unobj c = c /\ is_decl c = false /\ type_of c = Ok TBool.
  Proof.
    intros E T Ga Gb. destruct (tidy_clause (fun _ => None) op ea eb c E T) as [Ta Tb]. pose proof (tidy_unobj _ Ta) as Ua. pose proof (tidy_unobj _ Tb) as Ub. specialize (Ga Ta). specialize (Gb Tb).
    assert (F : Forall (fun e => good e s /\ unobj e = e) [ea; eb]) by (constructor; [split; assumption|constructor; [split; assumption|constructor]]).
    assert (R : forall k, simple k = true -> rebuild k TBool [ea; eb] = Ok c -> (forall x, rebuild k TBool [ea; eb] = Ok x -> x = Node k TBool [ea; eb]) -> good c s /\ unobj c = c /\ is_decl c = false /\ type_of c = Ok TBool).
    { intros k K RB SH. pose proof (SH _ RB) as ->. split; [now apply good_simple|]. destruct k; try discriminate K; repeat split. }
    assert (SC : forall k, mkCmp k [ea; eb] = Ok c -> forall x, mkCmp k [ea; eb] = Ok x -> x = Node k TBool [ea; eb]).
    { intros k _ x X. unfold mkCmp in X. apply bindR_ok in X as (? & _ & X). apply bindR_ok in X as (? & _ & X). destruct (ty_eqb _ _); [|discriminate]. congruence. }
    unfold clause in E. apply bindR_ok in E as (tl & Tl & E). apply bindR_ok in E as (tr & Tr & E).
    destruct (String.eqb op "=="); [destruct (ty_eqb tl tr); [|discriminate]; apply (R KEq eq_refl E); intros x X; cbn in X; congruence|].
    destruct (negb _ || negb _); [discriminate|].
    destruct (String.eqb op ">"); [exact (R KGt eq_refl E (SC KGt E))|].
    destruct (String.eqb op "<"); [exact (R KLt eq_refl E (SC KLt E))|].
    destruct (String.eqb op ">="); [exact (R KGe eq_refl E (SC KGe E))|].
    destruct (String.eqb op "<="); [exact (R KLe eq_refl E (SC KLe E))|].
    destruct (String.eqb op "!="); [|discriminate]. cbn in E. injection E as <-. split; [|repeat split]. apply good_simple; [reflexivity| |reflexivity]. constructor; [split; [apply good_simple; auto|reflexivity]|constructor].
  Qed.
  Lemma clauses_made vars : forall ops l s cs s', Forall Q l -> clauses ops (map (parse sigs) l) s = (Ok cs, s') -> forallb tidy cs = true -> forallb (scoped sigs gs vars false) l = true ->
    Forall (fun c => (good c s' /\ unobj c = c) /\ is_decl c = false /\ type_of c = Ok TBool) cs.
  Proof.
    induction ops as [|op ops IH]; intros l s cs s' F E TD SC; [cbn in E; injection E as <- <-; constructor|].
    destruct l as [|a [|b rest]]; [discriminate|discriminate|]. cbn [map clauses] in E.
    apply bindM_ok in E as (ea & s1 & E1 & E). apply bindM_ok in E as (eb & s2 & E2 & E). apply bindM_ok in E as (c & s3 & E3 & E). apply lift_ok in E3 as [E3 ->].
    apply bindM_ok in E as (cs' & s4 & E4 & E). apply ret_ok in E as [-> ->].
    pose proof (grows_of _ _ _ _ (mono_parse sigs b) E2) as G2.
    assert (G3 : grows s2 s4) by (refine (grows_of _ _ _ _ (mono_clauses ops _ _) E4); apply Forall_forall; intros m M; change (parse sigs b :: map (parse sigs) rest) with (map (parse sigs) (b :: rest)) in M; apply in_map_iff in M as (n & <- & _); apply mono_parse).
    pose proof (grows_trans _ _ _ G2 G3) as G1. cbn [forallb] in TD. apply andb_true_iff in TD as [T1 T2]. inversion F as [|? ? Qa F']; subst. inversion F' as [|? ? Qb _]; subst. cbn [forallb] in SC. apply andb_true_iff in SC as [Sa SC]. pose proof SC as SC'. apply andb_true_iff in SC as [Sb _].
    constructor; [|eapply IH; eauto]. destruct (clause_made op ea eb c s4 E3 T1) as (X1 & X2 & X3 & X4); auto.
    - intros T. eapply good_grows; [|exact G1]. eapply (Q_val a); eauto. now rewrite tidy_unobj.
    - intros T. eapply good_grows; [|exact G3]. eapply (Q_val b); eauto. now rewrite tidy_unobj.
  Qed.
  Lemma q_cmp l ops : Forall Q l -> Q (NCmp l ops).
  Proof.
    intros F arg vars s e s' E TD SC. cbn [scoped] in SC. cbn -[bindM clauses conj] in E. apply bindM_ok in E as (cs & s1 & E1 & E). apply lift_ok in E as [E ->].
    assert (W : (exists c, cs = [c] /\ e = c) \/ (cs <> [] /\ e = Node KAnd TBool cs /\ mkBoolN KAnd cs = Ok e)).
    { unfold conj in E. destruct cs as [|c [|c' cs]]; [discriminate|left; eexists; split; [reflexivity|congruence]|right; pose proof (proj1 (boolN_ok _ _ _ _ E)) as ->; repeat split; [discriminate|exact E]]. }
    assert (NT : Forall (fun c => unobj c = c) cs).
    { revert E1. clear. revert l s cs. induction ops as [|op ops IH]; intros l s cs E; [cbn in E; injection E as <- <-; constructor|].
      destruct l as [|a [|b rest]]; [discriminate|discriminate|]. cbn [map clauses] in E. apply bindM_ok in E as (ea & s2 & _ & E). apply bindM_ok in E as (eb & s3 & _ & E). apply bindM_ok in E as (c' & s4 & E3 & E). apply lift_ok in E3 as [E3 ->].
      apply bindM_ok in E as (cs' & s5 & E4 & E). apply ret_ok in E as [-> ->]. constructor; [|exact (IH (b :: rest) _ _ E4)].
      unfold clause in E3. repeat (apply bindR_ok in E3 as (? & ? & E3)).
      repeat match type of E3 with context [String.eqb op ?x] => destruct (String.eqb op x) end;
        repeat match type of E3 with context [ty_eqb ?x ?y] => destruct (ty_eqb x y) end; cbn in E3; try discriminate; unfold mkCmp in E3; repeat (apply bindR_ok in E3 as (? & ? & E3));
        repeat match type of E3 with context [ty_eqb ?x ?y] => destruct (ty_eqb x y) end; try discriminate; injection E3 as <-; reflexivity. }
    assert (TC : forallb tidy cs = true).
    { destruct W as [(c & -> & ->)|(_ & -> & _)]; [inversion NT as [|? ? U _]; subst; rewrite U in TD; cbn; now rewrite TD|cbn [unobj tidy] in TD; now apply andb_true_iff in TD as [TD _]]. }
    pose proof (clauses_made vars ops l s cs s1 F E1 TC SC) as FC. destruct W as [(c & -> & ->)|(N & -> & MB)].
    - inversion FC as [|? ? ((G & U) & D & _) _]; subst. split; [exact G|]. intros _. now rewrite U.
    - split; [|reflexivity]. apply good_simple; [reflexivity| |exact MB]. eapply Forall_impl; [|exact FC]. cbn. tauto.
  Qed.
  Lemma q_index b i : Q b -> Q i -> Q (NIndex b i).
  Proof.
    intros Qb Qi arg vars s e s' E TD SC. cbn [scoped] in SC. apply andb_true_iff in SC as [Sb Si].
    cbn -[bindM index_node base_object] in E. apply bindM_ok in E as (eb & s1 & E1 & E). apply bindM_ok in E as (o & s2 & E2 & E). apply lift_ok in E2 as [E2 ->].
    apply bindM_ok in E as (ei & s3 & E3 & E). apply lift_ok in E as [E ->]. unfold index_node in E. rewrite E2 in E. cbn [bindR] in E.
    pose proof (grows_of _ _ _ _ (mono_parse sigs i) E3) as G.
    destruct (base_is _ _ E2) as (Tb & Ob & Ub). apply bindR_ok in E as (o' & E & X). injection X as <-.
    unfold getitem in E. apply bindR_ok in E as (c & C & E). pose proof (call_src _ _ _ _ E) as W. cbn [map o_src] in W. rewrite Ob in W. rewrite W in *. clear E W. split; [|reflexivity].
    cbn [unobj tidy forallb] in TD. rewrite !andb_true_iff in TD. destruct TD as [(_ & T1 & T2 & _) _]. rewrite <- Ub. rewrite <- Ub in T1.
    change [unobj eb; unobj ei] with (map unobj [eb; ei]). apply plain_call. destruct (Q_val b _ _ _ _ Qb E1 T1 Sb) as [G1 N1]. destruct (Q_val i _ _ _ _ Qi E3 T2 Si) as [G2 N2]. constructor; [split; [eapply good_grows; eauto|exact N1]|constructor; [split; assumption|constructor]].
  Qed.
  Lemma q_slice b i j k : Q b -> optP Q i -> optP Q j -> Q (NSlice b i j k).
  Proof.
    intros Qb Qi Qj arg vars s e s' E TD SC. cbn [scoped] in SC. rewrite !andb_true_iff in SC. destruct SC as [[[Sb Si] Sj] _].
    cbn -[bindM slice_node base_object] in E. apply bindM_ok in E as (eb & s1 & E1 & E). apply bindM_ok in E as (o & s2 & E2 & E). apply lift_ok in E2 as [E2 ->].
    apply bindM_ok in E as (ei & s3 & E3 & E). apply bindM_ok in E as (ej & s4 & E4 & E). apply lift_ok in E as [E ->].
    apply opt_ok in E3 as [G3 E3]. apply opt_ok in E4 as [G4 E4]. pose proof (grows_trans _ _ _ G3 G4) as G.
    destruct (base_is _ _ E2) as (Tb & Ob & Ub).
    assert (SB : tidy (unobj eb) = true -> good eb s4 /\ is_decl (unobj eb) = false) by (intros T1; destruct (Q_val b _ _ _ _ Qb E1 T1 Sb); split; auto; eapply good_grows; eauto).
    assert (SI : match i, ei with Some n, Some x => tidy (unobj x) = true -> good x s4 /\ is_decl (unobj x) = false | None, None => True | _, _ => False end).
    { destruct i as [n|], ei as [x|]; auto. intros T1. destruct (Q_val n _ _ _ _ Qi E3 T1 Si); split; auto; eapply good_grows; eauto. }
    assert (SJ : match j, ej with Some n, Some x => tidy (unobj x) = true -> good x s4 /\ is_decl (unobj x) = false | None, None => True | _, _ => False end).
    { destruct j as [n|], ej as [x|]; auto. intros T1. exact (Q_val n _ _ _ _ Qj E4 T1 Sj). }
    unfold slice_node in E.
    destruct i as [ni|], ei as [xi|]; try contradiction; destruct j as [nj|], ej as [xj|]; try contradiction; try discriminate; cbn [option_map] in E;
      apply bindR_ok in E as (o' & E & X); injection X as <-; unfold getitem in E; apply bindR_ok in E as (c & C & E); pose proof (call_src _ _ _ _ E) as W; cbn [map o_src sarg_obj] in W; rewrite Ob in W; rewrite W in *; clear E W; (split; [|reflexivity]);
      cbn [unobj tidy forallb] in TD; rewrite !andb_true_iff in TD; rewrite <- Ub in TD; rewrite <- Ub.
    - destruct TD as [(_ & T1 & T2 & T3 & _) _]. change [unobj eb; unobj xi; unobj xj] with (map unobj [eb; xi; xj]). apply plain_call. repeat (apply Forall_cons || apply Forall_nil); auto.
    - destruct TD as [(_ & T1 & T2 & _) _]. change [unobj eb; unobj xi] with (map unobj [eb; xi]). apply plain_call. repeat (apply Forall_cons || apply Forall_nil); auto.
    - destruct TD as [(_ & T1 & T2 & _) _]. change [unobj eb; unobj xj] with (map unobj [eb; xj]). apply plain_call. repeat (apply Forall_cons || apply Forall_nil); auto.
  Qed.
  Lemma params_vars ps : forall ts vs, params ps ts = Ok vs -> forallb is_var vs = true.
  Proof.
    induction ps as [|p ps IH]; intros [|t ts] vs E; try (cbn in E; injection E as <-; reflexivity). cbn in E. apply bindR_ok in E as (v & V & E). apply bindR_ok in E as (vs' & V' & E). injection E as <-. apply named_is in V. subst v. cbn. eauto.
  Qed.
  Lemma q_lambda ps t body : Q body -> Q (NLambda ps t body).
  Proof.
    intros Qb arg vars s e s' E TD SC. cbn [scoped] in SC. cbn -[bindM] in E. apply bindM_ok in E as (o & s1 & E1 & E). apply lift_ok in E1 as [E1 ->]. rewrite E1 in SC.
    destruct o as [[| | | | | | |[|rt a]]|]; try discriminate. rewrite !andb_true_iff in SC. destruct SC as ((((-> & AP) & FO) & L) & SC). split; [|discriminate].
    apply bindM_ok in E as (vs & s2 & E2 & E). apply lift_ok in E2 as [E2 ->]. apply bindM_ok in E as (b & s3 & E3 & E). apply lift_ok in E as [E ->].
    unfold mkFn in E. apply bindR_ok in E as (ts & TS & E). injection E as <-. cbn [unobj tidy forallb] in TD. rewrite !andb_true_iff in TD. destruct TD as [(_ & T1 & _) T2].
    destruct (Q_val body _ _ _ _ Qb E3 T1 SC) as [[M P1] _]. split; cbn [unobj].
    - split; [exact M|]. split; [exact (params_vars _ _ _ E2)|eauto].
    - cbn [pend is_call flat_map app]. rewrite (vars_pend vs (params_vars _ _ _ E2)), app_nil_r. exact P1.
  Qed.
  Lemma call_args_made f vars : forall l tys names s es s', Forall Q l ->
    call_args f (map (fun a => (parse sigs a, shape_of a)) l) tys names s = (Ok es, s') -> forallb tidy (map unobj es) = true -> forallb (scoped sigs gs vars true) l = true ->
    Forall (fun e => good e s' /\ (is_decl (unobj e) = true -> In (f, decl_name (unobj e)) (s_calls s'))) es.
  Proof.
    induction l as [|n l IH]; intros tys names s es s' F E TD SC; [destruct tys; cbn in E; injection E as <- <-; constructor|].
    destruct tys as [|t tys]; [cbn in E; injection E as <- <-; constructor|].
    cbn -[bindM ty_eqb fn_arg shape_of] in E. apply bindM_ok in E as (e & s1 & E1 & E). apply bindM_ok in E as (te & s2 & E2 & E). apply lift_ok in E2 as [T ->].
    destruct (ty_eqb te t) eqn:X; [|discriminate]. apply ty_eqb_eq in X. subst te. cbn [negb] in E.
    apply bindM_ok in E as (e' & s3 & E3 & E). apply bindM_ok in E as (es' & s4 & E4 & E). apply ret_ok in E as [-> ->].
    inversion F as [|? ? Qn F']; subst. cbn [forallb] in SC. apply andb_true_iff in SC as [Sn SC]. cbn [map forallb] in TD. apply andb_true_iff in TD as [Tn TD].
    assert (G4 : grows s3 s4) by (refine (grows_of _ _ _ _ (mono_call_args f _ _ _ _) E4); apply Forall_forall; intros [m sh] M; apply in_map_iff in M as (k & X & _); injection X as <- <-; apply mono_parse).
    constructor; [|eapply IH; eauto].
    assert (HD : good e' s3 /\ (is_decl (unobj e') = true -> In (f, decl_name (unobj e')) (s_calls s3))).
    { destruct (lam n) eqn:LN.
      - destruct n; try discriminate LN. destruct (lambda_shape _ _ _ _ _ _ _ E1) as (rt & ts & b' & vs & ->). cbn in T. injection T as <-. cbn [is_fn_ty shape_of] in E3.
        assert (W : exists m, e' = set_name (Node KFnDeclRec (TFn (rt :: ts)) (Atom (PStr "<lambda>") :: b' :: vs)) m /\ grows s1 s3 /\ In (f, m) (s_calls s3)).
        { pose proof (grows_of _ _ _ _ (mono_fn_arg f names ALambda _) E3) as G. unfold fn_arg in E3. destruct (find_lam _ _) as [[m|]|]; [| |discriminate].
          - injection E3 as <- <-. exists m. cbn [s_calls]. split; [reflexivity|]. split; [exact G|]. apply in_or_app; right; left; reflexivity.
          - destruct names as [|p names]; [discriminate|]. injection E3 as <- <-. eexists. cbn [s_calls]. split; [reflexivity|]. split; [exact G|]. apply in_or_app; right; left; reflexivity. }
        destruct W as (m & -> & G & IN). cbn [set_name unobj decl_name] in *. split; [|intros _; exact IN].
        assert (G1 : good (Node KFnDeclRec (TFn (rt :: ts)) (Atom (PStr "<lambda>") :: b' :: vs)) s1) by (eapply Qn; eauto).
        apply (good_grows _ _ s3) in G1; [|exact G]. exact G1.
      - assert (W : e' = e /\ grows s1 s3).
        { destruct (is_fn_ty t); [|apply ret_ok in E3 as [-> ->]; split; [reflexivity|apply grows_refl]].
          pose proof (grows_of _ _ _ _ (mono_fn_arg f names _ _) E3) as G. split; [|exact G]. unfold fn_arg in E3. destruct n; try discriminate LN; cbn in E3; try discriminate E3; injection E3 as <- <-; reflexivity. }
        destruct W as [-> G]. destruct (Qn true vars s e s1 E1 Tn Sn) as [G1 N1]. split; [eapply good_grows; eauto|]. rewrite (N1 LN). discriminate. }
    destruct HD as [X1 X2]. split; [eapply good_grows; eauto|]. intros DE. apply (proj2 G4 _ (X2 DE)).
  Qed.

  Lemma q_call f l k t : Forall Q l -> Q (NCall f l k t).
  Proof.
    intros F arg vars s e s' E TD SC. cbn [scoped] in SC. cbn -[bindM call_node len_node] in E. destruct (String.eqb f "len") eqn:FL.
    - destruct l as [|a [|]]; try discriminate. apply bindM_ok in E as (ea & s1 & E1 & E). apply lift_ok in E as [E ->].
      inversion F as [|? ? Qa _]; subst. cbn in SC. rewrite andb_true_r in SC. unfold len_node in E. apply bindR_ok in E as (ta & Ta & E).
      assert (W : exists g, e = Node KCall TInt (Atom (PStr g) :: map unobj [ea])).
      { destruct ta; try discriminate; apply bindR_ok in E as (o & E & X); injection X as <-; apply call_src in E; cbn [map o_src] in E; eexists; exact E. }
      destruct W as (g & ->). cbn -[smem] in TD. rewrite !andb_true_iff in TD. destruct TD as [[T1 _] _]. split; [|reflexivity]. apply plain_call. constructor; [|constructor]. eapply Q_val; eauto.
    - unfold call_node in E. destruct (dget sigs f) as [g|] eqn:DG; [|discriminate]. destruct (Nat.eqb _ _) eqn:L in E; [|discriminate]. cbn [negb] in E.
      apply bindM_ok in E as (es & s1 & E1 & E). apply bindM_ok in E as (ac & s2 & E2 & E). apply lift_ok in E2 as [_ ->].
      destruct ac as [ac|]; [|discriminate]. destruct (ty_eqb ac (g_ret g)); [|discriminate]. apply lift_ok in E as [E ->]. apply bindR_ok in E as (o & E & X). injection X as <-.
      apply call_src in E. rewrite map_map in E. cbn [o_src] in E. change (fun x : expr => unobj x) with unobj in E. rewrite E in *. clear E.
      assert (TT : forallb tidy (map unobj es) = true) by (cbn [unobj tidy forallb] in TD; apply andb_true_iff in TD as [TD _]; exact TD).
      pose proof (call_args_made f vars l _ _ s es s1 F E1 TT SC) as FA. split; [|reflexivity]. apply good_call; [eapply Forall_impl; [|exact FA]; cbn; tauto|].
      intros x IN DX. rewrite Forall_forall in FA. apply (FA x IN), DX.
  Qed.
  Theorem parse_made : forall n, Q n.
  Proof.
    apply pnode_ind'.
    - exact q_name.
    - exact q_int.
    - exact q_op.
    - intros op a _. apply q_unary.
    - intros l t _. apply q_list.
    - exact q_cond.
    - exact q_cmp.
    - exact q_index.
    - intros b s e t Pb Ps Pe _. now apply q_slice.
    - exact q_call.
    - intros arg vars s e s' E. discriminate E.
    - intros arg vars s e s' E _ SC. discriminate SC.
    - exact q_lambda.
    - intros arg vars s e s' E. discriminate E.
  Qed.

  Lemma fun_made f s d s' : parse_fun sigs f s = (Ok d, s') -> tidy d = true -> covered sigs gs f -> made d /\ incl (pend d) (s_calls s').
  Proof.
    intros E TD (g & n & Dg & RB & ND & L & AP & SC).
    unfold parse_fun in E. rewrite Dg in E. apply bindM_ok in E as (vs & s1 & E1 & E). apply lift_ok in E1 as [E1 ->].
    apply bindM_ok in E as (b & s2 & E2 & E). apply bindM_ok in E as (d' & s3 & E3 & E). apply lift_ok in E3 as [E3 ->]. injection E as -> <-. cbn [s_decls s_calls] in *.
    apply parse_body_ok in E2 as (n' & RB' & E2). rewrite RB in RB'. injection RB' as <-.
    unfold mkFn in E3. apply bindR_ok in E3 as (ts & TS & E3). injection E3 as <-. cbn [tidy forallb] in TD. rewrite !andb_true_iff in TD. destruct TD as [(_ & T1 & _) T2].
    destruct (parse_made n false _ _ _ _ E2 T1 SC) as [[M P1] _].
    assert (V : forallb is_var (sort_vars vs) = true).
    { apply forallb_forall. intros x X. apply (Permutation_in _ (sort_perm vs)) in X. exact (proj1 (forallb_forall _ _) (params_vars _ _ _ E1) x X). }
    split; [cbn [made]; eauto 6|]. cbn [pend is_call flat_map app]. rewrite (vars_pend _ V), app_nil_r. exact P1.
  Qed.
End Made.

(** every function of a covered solution is left with names where functions are arguments *)
Theorem funs_replaced sigs target s0 s : parse_funs sigs target s0 = (Ok tt, s) -> forallb tidy (s_decls s) = true ->
  Forall (covered sigs (map snd (s_calls s))) target ->
  forall f, In f target -> exists d, In d (s_decls s) /\ is_decl d = true /\ decl_name d = f_name f /\ replace_in_calls (s_calls s) d = Ok (erase d).
Proof.
  intros E TD COV f IN. destruct (parse_funs_each _ _ _ _ E f IN) as (s1 & d & s2 & E1 & Dd & G1 & G2). rewrite Forall_forall in COV.
  assert (Td : tidy d = true) by (exact (proj1 (forallb_forall _ _) TD d (G1 _ Dd))).
  destruct (fun_made _ _ _ _ _ _ E1 Td (COV f IN)) as [M P1]. exists d. split; [auto|].
  assert (W : is_decl d = true /\ decl_name d = f_name f).
  { unfold parse_fun in E1. destruct (dget sigs (f_name f)); [|discriminate]. apply bindM_ok in E1 as (vs & s3 & _ & E1). apply bindM_ok in E1 as (b & s4 & _ & E1). apply bindM_ok in E1 as (d' & s5 & X & E1).
    injection E1 as -> <-. apply lift_ok in X as [X _]. unfold mkFn in X. apply bindR_ok in X as (ts & _ & X). injection X as <-. auto. }
  destruct W as [W1 W2]. repeat split; auto. apply replace_all; [exact M|]. intros q Hq. apply G2, P1, Hq.
Qed.
