(** Lambdas that share a name are the same function. *)

From Coq Require Import String Ascii List ZArith Bool Lia Permutation.
From Verif Require Import Ast IrProofs Dict Semantics UtilProofs ListOps LibSem ObjModel Properties_Rkt Properties_Obj LmModel LmSem LmProofs LmProofs3 LmProofs4 LmProofs5 LmProofs6.
Import ListNotations.
Local Open Scope string_scope.
Local Open Scope list_scope.

Lemma clean_unobj e : clean e = true -> unobj e = e.
Proof. destruct e as [|k t args]; [reflexivity|]. destruct k; try reflexivity. discriminate. Qed.
Lemma eq_clean : forall a b, eq_expr a b = Ok true -> clean b = true -> clean a = true.
Proof.
  induction a as [a|k t args IH] using expr_ind'; intros b E C; [destruct b; discriminate|]. destruct b as [|k' t' args']; [discriminate|].
  assert (C1 : is_con k' = false) by (destruct k'; first [reflexivity|discriminate C]).
  destruct (is_con k) eqn:K; [cbn [eq_expr] in E; rewrite K, C1 in E; discriminate|]. apply eq_node in E as (t2 & l2 & X & F); [|exact K]. injection X as -> -> ->.
  assert (L : forall l l', Forall2 (fun x y => eq_expr x y = Ok true) l l' -> Forall (fun a => forall b, eq_expr a b = Ok true -> clean b = true -> clean a = true) l -> forallb clean l' = true -> forallb clean l = true).
  { clear. intros l l' F. induction F as [|x y l l' E F IHF]; intros I0 C; [reflexivity|]. inversion I0; subst. cbn in C |- *. apply andb_true_iff in C as [X Y]. rewrite (H1 _ E X), IHF; auto. }
  destruct k; try discriminate K; cbn [clean] in C |- *; try reflexivity; try (eapply L; eauto; fail); (destruct F as [|x y l l' Ex F]; [exact C|]; inversion IH; subst; eapply L; eauto).
Qed.
Lemma clean2 k t a b : simple k = true -> clean (Node k t [a; b]) = true -> clean a = true /\ clean b = true.
Proof. intros K X. assert (Y : forallb clean [a; b] = true) by (destruct k; try discriminate K; exact X). cbn in Y. rewrite !andb_true_iff in Y. tauto. Qed.
Lemma clause_clean op ea eb c : clause op ea eb = Ok c -> unobj c = c /\ (clean c = true -> clean ea = true /\ clean eb = true).
Proof.
  intros E.
  assert (SC : forall k, simple k = true -> mkCmp k [ea; eb] = Ok c -> unobj c = c /\ (clean c = true -> clean ea = true /\ clean eb = true)).
  { intros k K X. unfold mkCmp in X. apply bindR_ok in X as (? & _ & X). apply bindR_ok in X as (? & _ & X). destruct (ty_eqb _ _); [|discriminate]. injection X as <-. split; [destruct k; try reflexivity; discriminate K|now apply clean2]. }
  unfold clause in E. apply bindR_ok in E as (tl & Tl & E). apply bindR_ok in E as (tr & Tr & E).
  destruct (String.eqb op "=="); [destruct (ty_eqb tl tr); [|discriminate]; cbn in E; injection E as <-; split; [reflexivity|now apply clean2]|].
  destruct (negb _ || negb _); [discriminate|].
  destruct (String.eqb op ">"); [exact (SC KGt eq_refl E)|].
  destruct (String.eqb op "<"); [exact (SC KLt eq_refl E)|].
  destruct (String.eqb op ">="); [exact (SC KGe eq_refl E)|].
  destruct (String.eqb op "<="); [exact (SC KLe eq_refl E)|].
  destruct (String.eqb op "!="); [|discriminate]. cbn in E. injection E as <-. split; [reflexivity|]. cbn [clean forallb]. rewrite !andb_true_iff. tauto.
Qed.
Lemma made_simple k t l : simple k = true -> Forall (fun e => made (unobj e) /\ unobj e = e) l -> rebuild k t l = Ok (Node k t l) -> made (Node k t l).
Proof.
  intros K F R. assert (M : all_made l) by (apply all_made_F; eapply Forall_impl; [|exact F]; intros a [Ma U]; now rewrite U in Ma). destruct k; try discriminate K; (split; [exact M|exact R]).
Qed.
Lemma made_call f t l : Forall (fun e => made (unobj e)) l -> made (Node KCall t (Atom (PStr f) :: map unobj l)).
Proof. intros F. cbn [made]. change (all_made (map unobj l)). apply all_made_F. rewrite Forall_forall in F |- *. intros x X. apply in_map_iff in X as (y & <- & Y). auto. Qed.
Lemma clean_call t f l : clean (Node KCall t (Atom (PStr f) :: l)) = true -> forallb clean l = true.
Proof. intros X. exact X. Qed.

Section Clean.
  Variable sigs : dict psig.
  Definition C (n : pnode) : Prop := forall s e s', parse sigs n s = (Ok e, s') -> clean (unobj e) = true -> made (unobj e).

  Lemma c_op op a b : C a -> C b -> C (NOp op a b).
  Proof.
    intros Ca Cb s e s' E TD. cbn -[bindM op_node] in E. apply bindM_ok in E as (el & s1 & E1 & E). apply bindM_ok in E as (er & s2 & E2 & E). apply lift_ok in E as [E ->].
    assert (PLAIN : forall k t, simple k = true -> e = Node k t [el; er] -> rebuild k t [el; er] = Ok (Node k t [el; er]) -> made (unobj e)).
    { intros k t K -> RB. assert (U : unobj (Node k t [el; er]) = Node k t [el; er]) by (destruct k; try discriminate K; reflexivity). rewrite U in *. apply clean2 in TD as [T1 T2]; [|exact K].
      pose proof (clean_unobj _ T1) as U1. pose proof (clean_unobj _ T2) as U2. rewrite <- U1 in T1. rewrite <- U2 in T2. apply made_simple; [exact K| |exact RB]. constructor; [split; [eapply Ca; eauto|auto]|constructor; [split; [eapply Cb; eauto|auto]|constructor]]. }
    unfold op_node in E. apply bindR_ok in E as (tl & Tl & E). apply bindR_ok in E as (tr & Tr & E).
    destruct (ty_eqb tl TInt && ty_eqb tr TInt).
    - unfold int_node in E.
      destruct (String.eqb op "+"); [pose proof (arithN_ok _ _ _ _ E) as X; apply (PLAIN KAdd TInt eq_refl X); now rewrite X in E|].
      destruct (String.eqb op "-"); [pose proof (arith2_ok _ _ _ _ E) as X; apply (PLAIN KSub TInt eq_refl X); now rewrite X in E|].
      destruct (String.eqb op "*"); [pose proof (arithN_ok _ _ _ _ E) as X; apply (PLAIN KMul TInt eq_refl X); now rewrite X in E|].
      destruct (String.eqb op "//" || String.eqb op "/"); [pose proof (arith2_ok _ _ _ _ E) as X; apply (PLAIN KDiv TInt eq_refl X); now rewrite X in E|].
      destruct (String.eqb op "%"); [pose proof (arith2_ok _ _ _ _ E) as X; apply (PLAIN KMod TInt eq_refl X); now rewrite X in E|discriminate].
    - destruct (flat_list tl && flat_list tr).
      + destruct (String.eqb op "+"); [|discriminate]. cbn in E. injection E as <-. cbn [unobj] in *. apply clean_call in TD. cbn [forallb] in TD. rewrite !andb_true_iff in TD. destruct TD as (T1 & T2 & _).
        apply (made_call "list_concat" (TList TInt) [el; er]). repeat (apply Forall_cons || apply Forall_nil); [eapply Ca|eapply Cb]; eauto.
      + destruct (ty_eqb tl TBool && ty_eqb tr TBool); [|discriminate].
        destruct (String.eqb op "and"); [pose proof (proj1 (boolN_ok _ _ _ _ E)) as X; apply (PLAIN KAnd TBool eq_refl X); now rewrite X in E|].
        destruct (String.eqb op "or"); [pose proof (proj1 (boolN_ok _ _ _ _ E)) as X; apply (PLAIN KOr TBool eq_refl X); now rewrite X in E|discriminate].
  Qed.
  Lemma c_cond c a b : C c -> C a -> C b -> C (NCond c a b).
  Proof.
    intros Qc Qa Qb s e s' E TD.
    cbn -[bindM cond_node] in E. apply bindM_ok in E as (ec & s1 & E1 & E). apply bindM_ok in E as (ea & s2 & E2 & E). apply bindM_ok in E as (eb & s3 & E3 & E). apply lift_ok in E as [E ->].
    unfold cond_node in E. apply bindR_ok in E as (t & Ta & E). apply bindR_ok in E as (i & Ti & E). apply bindR_ok in E as (o & To & E). injection E as <-. apply create_src in To. rewrite To in *. clear To o.
    assert (W : exists t', i = Node KIte t' [unobj ec; unobj ea; unobj eb] /\ rebuild KIte t' [unobj ec; unobj ea; unobj eb] = Ok i).
    { cbn [rebuild]. rewrite Ti. unfold mkIte in Ti. apply bindR_ok in Ti as (tc & _ & Ti). destruct (negb _); [discriminate|]. apply bindR_ok in Ti as (ta & _ & Ti). apply bindR_ok in Ti as (tb & _ & Ti). destruct (ty_eqb ta tb); [|discriminate]. injection Ti as <-. eauto. }
    destruct W as (t' & -> & RB). cbn [unobj clean forallb] in TD |- *. rewrite !andb_true_iff in TD. destruct TD as (T1 & T2 & T3 & _).
    apply made_simple; [reflexivity| |exact RB]. pose proof (clean_unobj _ T1) as U1. pose proof (clean_unobj _ T2) as U2. pose proof (clean_unobj _ T3) as U3.
    repeat (apply Forall_cons || apply Forall_nil); rewrite ?U1, ?U2, ?U3; (split; [|reflexivity]); [eapply Qc|eapply Qa|eapply Qb]; eauto.
  Qed.
  Lemma clause_made' op ea eb c : clause op ea eb = Ok c -> clean c = true -> (clean ea = true -> made ea) -> (clean eb = true -> made eb) -> made c.
  Proof.
    intros E T Ga Gb. destruct (proj2 (clause_clean _ _ _ _ E) T) as [Ta Tb]. specialize (Ga Ta). specialize (Gb Tb). pose proof (clean_unobj _ Ta) as Ua. pose proof (clean_unobj _ Tb) as Ub.
    assert (F : Forall (fun e => made (unobj e) /\ unobj e = e) [ea; eb]) by (repeat (apply Forall_cons || apply Forall_nil); rewrite ?Ua, ?Ub; auto).
    assert (R : forall k, simple k = true -> rebuild k TBool [ea; eb] = Ok c -> (forall x, rebuild k TBool [ea; eb] = Ok x -> x = Node k TBool [ea; eb]) -> made c).
    { intros k K RB SH. pose proof (SH _ RB) as ->. now apply made_simple. }
    assert (SC : forall k, mkCmp k [ea; eb] = Ok c -> forall x, mkCmp k [ea; eb] = Ok x -> x = Node k TBool [ea; eb]).
    { intros k _ x X. unfold mkCmp in X. apply bindR_ok in X as (? & _ & X). apply bindR_ok in X as (? & _ & X). destruct (ty_eqb _ _); [|discriminate]. congruence. }
    unfold clause in E. apply bindR_ok in E as (tl & Tl & E). apply bindR_ok in E as (tr & Tr & E).
    destruct (String.eqb op "=="); [destruct (ty_eqb tl tr); [|discriminate]; apply (R KEq eq_refl E); intros x X; cbn in X; congruence|].
    destruct (negb _ || negb _); [discriminate|].
    destruct (String.eqb op ">"); [exact (R KGt eq_refl E (SC KGt E))|].
    destruct (String.eqb op "<"); [exact (R KLt eq_refl E (SC KLt E))|].
    destruct (String.eqb op ">="); [exact (R KGe eq_refl E (SC KGe E))|].
    destruct (String.eqb op "<="); [exact (R KLe eq_refl E (SC KLe E))|].
    destruct (String.eqb op "!="); [|discriminate]. cbn in E. injection E as <-. apply made_simple; [reflexivity| |reflexivity]. constructor; [split; [apply (made_simple KEq TBool [ea; eb]); auto|reflexivity]|constructor].
  Qed.
  Lemma clauses_made' : forall ops l s cs s', Forall C l -> clauses ops (map (parse sigs) l) s = (Ok cs, s') -> Forall (fun c => unobj c = c /\ (clean c = true -> made c)) cs.
  Proof.
    induction ops as [|op ops IH]; intros l s cs s' F E; [cbn in E; injection E as <- <-; constructor|].
    destruct l as [|a [|b rest]]; [discriminate|discriminate|]. cbn [map clauses] in E.
    apply bindM_ok in E as (ea & s1 & E1 & E). apply bindM_ok in E as (eb & s2 & E2 & E). apply bindM_ok in E as (c & s3 & E3 & E). apply lift_ok in E3 as [E3 ->].
    apply bindM_ok in E as (cs' & s4 & E4 & E). apply ret_ok in E as [-> ->]. inversion F as [|? ? Qa F']; subst. inversion F' as [|? ? Qb _]; subst.
    constructor; [|exact (IH (b :: rest) _ _ _ F' E4)]. split; [apply (clause_clean _ _ _ _ E3)|]. intros T. eapply clause_made'; eauto.
    - intros T1. pose proof (clean_unobj _ T1) as U. rewrite <- U in T1 |- *. eapply Qa; eauto.
    - intros T1. pose proof (clean_unobj _ T1) as U. rewrite <- U in T1 |- *. eapply Qb; eauto.
  Qed.
  Lemma c_cmp l ops : Forall C l -> C (NCmp l ops).
  Proof.
    intros F s e s' E TD. cbn -[bindM clauses LmModel.conj] in E. apply bindM_ok in E as (cs & s1 & E1 & E). apply lift_ok in E as [E ->]. pose proof (clauses_made' _ _ _ _ _ F E1) as FC.
    unfold LmModel.conj in E. destruct cs as [|c [|c' cs]]; [discriminate| |].
    - injection E as <-. inversion FC as [|? ? [U M] _]; subst. rewrite U in *. auto.
    - pose proof (proj1 (boolN_ok _ _ _ _ E)) as X. rewrite X in *. cbn [unobj] in *. change (forallb clean (c :: c' :: cs) = true) in TD. apply made_simple; [reflexivity| |exact E].
      rewrite Forall_forall in FC |- *. rewrite forallb_forall in TD. intros x Hx. destruct (FC x Hx) as [U M]. rewrite U. auto.
  Qed.
  Lemma c_index b i : C b -> C i -> C (NIndex b i).
  Proof.
    intros Qb Qi s e s' E TD.
    cbn -[bindM index_node base_object] in E. apply bindM_ok in E as (eb & s1 & E1 & E). apply bindM_ok in E as (o & s2 & E2 & E). apply lift_ok in E2 as [E2 ->].
    apply bindM_ok in E as (ei & s3 & E3 & E). apply lift_ok in E as [E ->]. unfold index_node in E. rewrite E2 in E. cbn [bindR] in E.
    destruct (base_is _ _ E2) as (Tb & Ob & Ub). apply bindR_ok in E as (o' & E & X). injection X as <-.
    unfold getitem in E. apply bindR_ok in E as (c & Cc & E). pose proof (call_src _ _ _ _ E) as W. cbn [map o_src] in W. rewrite Ob in W. rewrite W in *. clear E W.
    cbn [unobj] in *. apply clean_call in TD. cbn [forallb] in TD. rewrite !andb_true_iff in TD. destruct TD as (T1 & T2 & _). rewrite <- Ub in T1 |- *.
    apply (made_call _ _ [eb; ei]). repeat (apply Forall_cons || apply Forall_nil); [eapply Qb|eapply Qi]; eauto.
  Qed.
  Lemma c_slice b i j k : C b -> optP C i -> optP C j -> C (NSlice b i j k).
  Proof.
    intros Qb Qi Qj s e s' E TD.
    cbn -[bindM slice_node base_object] in E. apply bindM_ok in E as (eb & s1 & E1 & E). apply bindM_ok in E as (o & s2 & E2 & E). apply lift_ok in E2 as [E2 ->].
    apply bindM_ok in E as (ei & s3 & E3 & E). apply bindM_ok in E as (ej & s4 & E4 & E). apply lift_ok in E as [E ->].
    apply opt_ok in E3 as [G3 E3]. apply opt_ok in E4 as [G4 E4].
    destruct (base_is _ _ E2) as (Tb & Ob & Ub).
    assert (SI : match i, ei with Some n, Some x => clean (unobj x) = true -> made (unobj x) | None, None => True | _, _ => False end).
    { destruct i as [n|], ei as [x|]; auto. intros T1. eapply Qi; eauto. }
    assert (SJ : match j, ej with Some n, Some x => clean (unobj x) = true -> made (unobj x) | None, None => True | _, _ => False end).
    { destruct j as [n|], ej as [x|]; auto. intros T1. eapply Qj; eauto. }
    assert (SB : clean (unobj eb) = true -> made (unobj eb)) by (intros; eapply Qb; eauto).
    unfold slice_node in E.
    destruct i as [ni|], ei as [xi|]; try contradiction; destruct j as [nj|], ej as [xj|]; try contradiction; try discriminate; cbn [option_map] in E;
      apply bindR_ok in E as (o' & E & X); injection X as <-; unfold getitem in E; apply bindR_ok in E as (c & Cc & E); pose proof (call_src _ _ _ _ E) as W; cbn [map o_src sarg_obj] in W; rewrite Ob in W; rewrite W in *; clear E W;
      cbn [unobj] in *; apply clean_call in TD; cbn [forallb] in TD; rewrite !andb_true_iff in TD; rewrite <- Ub in TD; rewrite <- Ub.
    - destruct TD as (T1 & T2 & T3 & _). apply (made_call _ _ [eb; xi; xj]). repeat (apply Forall_cons || apply Forall_nil); auto.
    - destruct TD as (T1 & T2 & _). apply (made_call _ _ [eb; xi]). repeat (apply Forall_cons || apply Forall_nil); auto.
    - destruct TD as (T1 & T2 & _). apply (made_call _ _ [eb; xj]). repeat (apply Forall_cons || apply Forall_nil); auto.
  Qed.
  Lemma c_lambda ps t body : C body -> C (NLambda ps t body).
  Proof.
    intros Qb s e s' E TD. cbn -[bindM] in E. apply bindM_ok in E as (o & s1 & E1 & E). apply lift_ok in E1 as [E1 ->].
    destruct o as [[| | | | | | |[|rt a]]|]; try discriminate.
    apply bindM_ok in E as (vs & s2 & E2 & E). apply lift_ok in E2 as [E2 ->]. apply bindM_ok in E as (b & s3 & E3 & E). apply lift_ok in E as [E ->].
    unfold mkFn in E. apply bindR_ok in E as (ts & TS & E). injection E as <-. cbn [unobj clean forallb] in TD |- *. rewrite !andb_true_iff in TD. destruct TD as (T1 & _).
    cbn [made]. split; [eapply Qb; eauto|]. split; [exact (params_vars _ _ _ E2)|eauto].
  Qed.
  Lemma set_name_made e n : made e -> is_decl e = true -> made (set_name e n).
  Proof. intros M D. destruct e as [|k t l]; [contradiction|]. destruct k; try discriminate D; try contradiction. cbn [made] in M |- *. destruct l as [|[[]|] [|b r]]; try contradiction. exact M. Qed.
  Lemma call_args_made' f : forall l tys names s es s', Forall C l ->
    call_args f (map (fun a => (parse sigs a, shape_of a)) l) tys names s = (Ok es, s') -> Forall (fun e => clean (unobj e) = true -> made (unobj e)) es.
  Proof.
    induction l as [|n l IH]; intros tys names s es s' F E; [destruct tys; cbn in E; injection E as <- <-; constructor|].
    destruct tys as [|t tys]; [cbn in E; injection E as <- <-; constructor|].
    cbn -[bindM ty_eqb fn_arg shape_of] in E. apply bindM_ok in E as (e & s1 & E1 & E). apply bindM_ok in E as (te & s2 & E2 & E). apply lift_ok in E2 as [T ->].
    destruct (ty_eqb te t) eqn:X; [|discriminate]. apply ty_eqb_eq in X. subst te. cbn [negb] in E.
    apply bindM_ok in E as (e' & s3 & E3 & E). apply bindM_ok in E as (es' & s4 & E4 & E). apply ret_ok in E as [-> ->].
    inversion F as [|? ? Qn F']; subst. constructor; [|eapply IH; eauto]. intros TC.
    destruct (lam n) eqn:LN.
    - destruct n; try discriminate LN. destruct (lambda_shape _ _ _ _ _ _ _ E1) as (rt & ts & b' & vs & ->). cbn in T. injection T as <-. cbn [is_fn_ty shape_of] in E3.
      assert (W : exists m, e' = set_name (Node KFnDeclRec (TFn (rt :: ts)) (Atom (PStr "<lambda>") :: b' :: vs)) m).
      { unfold fn_arg in E3. destruct (find_lam _ _) as [[m|]|]; [| |discriminate]; [|destruct names; [discriminate|]]; injection E3 as <- <-; eexists; reflexivity. }
      destruct W as (m & ->). cbn [set_name unobj] in *. apply (set_name_made (Node KFnDeclRec (TFn (rt :: ts)) (Atom (PStr "<lambda>") :: b' :: vs)) m); [|reflexivity]. exact (Qn _ _ _ E1 TC).
    - assert (W : e' = e).
      { destruct (is_fn_ty t); [|apply ret_ok in E3 as [-> ->]; reflexivity]. unfold fn_arg in E3. destruct n; try discriminate LN; cbn in E3; try discriminate E3; injection E3 as <- <-; reflexivity. }
      subst e'. eapply Qn; eauto.
  Qed.
  Lemma c_call f l k t : Forall C l -> C (NCall f l k t).
  Proof.
    intros F s e s' E TD. cbn -[bindM call_node len_node] in E. destruct (String.eqb f "len") eqn:FL.
    - destruct l as [|a [|]]; try discriminate. apply bindM_ok in E as (ea & s1 & E1 & E). apply lift_ok in E as [E ->].
      inversion F as [|? ? Qa _]; subst. unfold len_node in E. apply bindR_ok in E as (ta & Ta & E).
      assert (W : exists g, e = Node KCall TInt (Atom (PStr g) :: map unobj [ea])).
      { destruct ta; try discriminate; apply bindR_ok in E as (o & E & X); injection X as <-; apply call_src in E; cbn [map o_src] in E; eexists; exact E. }
      destruct W as (g & ->). cbn [unobj] in *. apply clean_call in TD. cbn [map forallb] in TD. rewrite andb_true_r in TD. apply made_call. constructor; [eapply Qa; eauto|constructor].
    - unfold call_node in E. destruct (dget sigs f) as [g|] eqn:DG; [|discriminate]. destruct (Nat.eqb _ _) eqn:L in E; [|discriminate]. cbn [negb] in E.
      apply bindM_ok in E as (es & s1 & E1 & E). apply bindM_ok in E as (ac & s2 & E2 & E). apply lift_ok in E2 as [_ ->].
      destruct ac as [ac|]; [|discriminate]. destruct (ty_eqb ac (g_ret g)); [|discriminate]. apply lift_ok in E as [E ->]. apply bindR_ok in E as (o & E & X). injection X as <-.
      apply call_src in E. rewrite map_map in E. cbn [o_src] in E. change (fun x : expr => unobj x) with unobj in E. rewrite E in *. clear E.
      cbn [unobj] in *. apply clean_call in TD. pose proof (call_args_made' f l _ _ _ _ _ F E1) as FA. apply made_call. rewrite Forall_forall in FA |- *. intros x Hx. apply FA; [exact Hx|]. rewrite forallb_forall in TD. apply TD, in_map, Hx.
  Qed.
  Theorem parse_clean : forall n, C n.
  Proof.
    apply pnode_ind'.
    - intros x t s e s' E TD. cbn -[bindM] in E. apply bindM_ok in E as (o & s1 & E1 & E). destruct o as [t'|]; [|discriminate]. apply lift_ok in E as [E ->]. apply named_is in E. subst e. reflexivity.
    - intros z s e s' E TD. apply ret_ok in E as [-> ->]. cbn. eauto.
    - exact c_op.
    - intros op a _ s e s' E TD. exfalso. cbn -[bindM unary_node] in E. destruct (String.eqb op "-") eqn:O; [|discriminate].
      apply bindM_ok in E as (ea & s1 & E1 & E). apply lift_ok in E as [E ->]. unfold unary_node in E. rewrite O in E. cbn [bindR] in E.
      apply bindR_ok in E as (t & T & E). destruct (ty_eqb t TInt); [|discriminate]. apply arith2_ok in E. subst e. discriminate TD.
    - intros l t _ s e s' E TD. apply lift_ok in E as [E ->]. unfold list_node in E. apply bindR_ok in E as (o & T & E). destruct o as [[]|]; try discriminate. cbn in E. injection E as <-. exact Logic.I.
    - exact c_cond.
    - exact c_cmp.
    - exact c_index.
    - intros b s e t Pb Ps Pe _. now apply c_slice.
    - exact c_call.
    - intros s e s' E. discriminate E.
    - intros s e s' E TD. apply ret_ok in E as [-> ->]. discriminate TD.
    - exact c_lambda.
    - intros s e s' E. discriminate E.
  Qed.
End Clean.

Definition is_rec (e : expr) : bool := match e with Node KFnDeclRec _ _ => true | _ => false end.
Lemma rec_decl e : is_rec e = true -> is_decl e = true.
Proof. destruct e as [|k t l]; [discriminate|]. destruct k; try discriminate; reflexivity. Qed.
Definition lam_ok (e : expr) : Prop := is_rec e = true /\ (clean e = true -> made e).
Lemma lambda_ok sigs ps t b s e s' : parse sigs (NLambda ps t b) s = (Ok e, s') -> lam_ok e.
Proof.
  intros E. pose proof (parse_clean sigs _ _ _ _ E) as CM. destruct (lambda_shape _ _ _ _ _ _ _ E) as (rt & ts & b' & vs & ->). split; [reflexivity|exact CM].
Qed.
Lemma same_fn_trans a b c : is_decl b = true -> made a -> made b -> made c -> same_fn b a -> same_fn b c -> means b a -> means b c -> same_fn a c.
Proof.
  intros D Ma Mb Mc F1 F2 (_ & D1 & _) (_ & D2 & _). rewrite D in D1, D2. destruct a as [|ka ta la], b as [|kb tb lb], c as [|kc tc lc]; try contradiction.
  destruct ka; try discriminate D1; try contradiction; destruct kb; try discriminate D; try contradiction; destruct kc; try discriminate D2; try contradiction.
  cbn [made] in Ma, Mb, Mc. destruct la as [|[[]|] [|xa ra]]; try contradiction. destruct lb as [|[[]|] [|xb rb]]; try contradiction. destruct lc as [|[[]|] [|xc rc]]; try contradiction.
  destruct F1 as [F1 G1], F2 as [F2 G2]. split; [congruence|]. intros I r. now rewrite <- G1, <- G2.
Qed.
Lemma carried_shape lams d : carries lam_ok lams d -> clean d = true -> NoDup (map snd lams) -> (forall k n, In (k, n) lams -> lam_ok k) ->
  exists k e, In (k, decl_name d) lams /\ d = set_name e (decl_name d) /\ is_rec k = true /\ made k /\ made e /\ means k e /\ same_fn k e.
Proof.
  intros (k & e & n & IN & EQ & (De & Ce) & ->) CL ND KK.
  assert (CE : clean e = true) by (destruct e as [|ke te [|x r]]; try discriminate De; destruct ke; try discriminate De; exact CL).
  pose proof (Ce CE) as Me. assert (NM : decl_name (set_name e n) = n) by (destruct e as [|ke te l]; [contradiction|]; destruct ke; try discriminate De; try contradiction; destruct l as [|[[]|] [|b r]]; try contradiction; reflexivity).
  destruct (KK _ _ IN) as [Dk Ck]. assert (CK : clean k = true) by (destruct EQ as [->|EQ]; [exact CE|exact (eq_clean _ _ EQ CE)]). pose proof (Ck CK) as Mk.
  rewrite NM. exists k, e. split; [exact IN|]. split; [reflexivity|]. split; [exact Dk|]. split; [exact Mk|]. split; [exact Me|]. destruct EQ as [<-|EQ]; [|exact (eq_means _ _ Mk Me EQ)].
  split; [split; auto|]. destruct k as [|kk tk l]; [contradiction|]. destruct kk; try discriminate Dk; try contradiction. destruct l as [|[[]|] [|b r]]; try contradiction. split; reflexivity.
Qed.
(** two lambdas that were given the same name are the same function *)
Theorem one_name s d1 d2 : counted lam_ok s -> carries lam_ok (s_lams s) d1 -> carries lam_ok (s_lams s) d2 -> clean d1 = true -> clean d2 = true ->
  decl_name d1 = decl_name d2 -> same_fn d1 d2.
Proof.
  intros [ND CN] C1 C2 L1 L2 N. assert (KK : forall k n, In (k, n) (s_lams s) -> lam_ok k) by (intros k n IN; apply (CN k n IN)).
  destruct (carried_shape _ _ C1 L1 ND KK) as (k1 & e1 & I1 & E1 & Dk & Mk & M1 & A1 & B1). destruct (carried_shape _ _ C2 L2 ND KK) as (k2 & e2 & I2 & E2 & _ & _ & M2 & A2 & B2).
  assert (k2 = k1). { rewrite <- N in I2. revert ND I1 I2. clear. generalize (decl_name d1). intros n. induction (s_lams s) as [|[k m] l IH]; intros ND I1 I2; [contradiction|]. cbn in ND. inversion ND as [|? ? N1 N2]; subst.
    destruct I1 as [I1|I1], I2 as [I2|I2]; [congruence| | |auto].
    - injection I1 as -> ->. destruct N1. change n with (snd (k2, n)). now apply in_map.
    - injection I2 as -> ->. destruct N1. change n with (snd (k1, n)). now apply in_map. }
  subst k2. pose proof (same_fn_trans _ _ _ (rec_decl _ Dk) M1 Mk M2 B1 B2 A1 A2) as SF.
  clear - SF E1 E2. rewrite E1, E2. destruct e1 as [|k1 t1 [|x1 r1]], e2 as [|k2 t2 [|x2 r2]]; try exact SF; cbn [set_name]; try (destruct k1; exact SF); try (destruct k1, k2; exact SF).
Qed.
Lemma carried_rec lams d : carries lam_ok lams d -> clean d = true -> exists t b ps, d = Node KFnDeclRec t (Atom (PStr (decl_name d)) :: b :: ps).
Proof.
  intros (k & e & n & IN & EQ & (De & Ce) & ->) CL. destruct e as [|ke te l]; [discriminate|]. destruct ke; try discriminate De.
  assert (M : made (Node KFnDeclRec te l)) by (apply Ce; destruct l; exact CL). cbn [made] in M. destruct l as [|[[]|] [|b r]]; try contradiction. cbn. eauto.
Qed.
