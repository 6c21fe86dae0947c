(** Proofs about metalift/vc.py, part 1: typed expressions. *)

From Coq Require Import String List ZArith Bool Lia.
From Verif Require Import Ast Semantics Dict IrProofs UtilProofs PySem PyProofs VcModel VcSem.
Import ListNotations.
Local Open Scope list_scope.

Section Typed.
Variables (I : interp) (G : sigs).
Hypothesis RESP : respects I G.

Definition binop_ty (k : kind) : option ty :=
  match k with KAdd | KSub | KMul => Some TInt | KLt | KLe => Some TBool | _ => None end.

Inductive typed (U : list (string * ty)) : expr -> ty -> Prop :=
| t_var x t : In (x, t) U -> typed U (mkVar x t) t
| t_int z : typed U (IntLit z) TInt
| t_bool b : typed U (BoolLit b) TBool
| t_bin k t a b : binop_ty k = Some t -> typed U a TInt -> typed U b TInt -> typed U (Node k t [a; b]) t
| t_eq u a b : typed U a u -> typed U b u -> typed U (Node KEq TBool [a; b]) TBool
| t_andor k es ts : k = KAnd \/ k = KOr -> es <> [] -> typeds U es ts -> Forall (eq TBool) ts -> typed U (Node k TBool es) TBool
| t_not a : typed U a TBool -> typed U (Node KNot TBool [a]) TBool
| t_implies a b : typed U a TBool -> typed U b TBool -> typed U (Node KImplies TBool [a; b]) TBool
| t_ite c a b t : typed U c TBool -> typed U a t -> typed U b t -> typed U (Node KIte t [c; a; b]) t
| t_call f ts t es : dget (g_fns G) f = Some (ts, t) -> typeds U es ts -> typed U (Node KCall t (Atom (PStr f) :: es)) t
with typeds (U : list (string * ty)) : list expr -> list ty -> Prop :=
| ts_nil : typeds U [] []
| ts_cons e t es ts : typed U e t -> typeds U es ts -> typeds U (e :: es) (t :: ts).
Scheme typed_mut := Induction for typed Sort Prop
  with typeds_mut := Induction for typeds Sort Prop.
Combined Scheme typed_both from typed_mut, typeds_mut.

Definition fit (U : list (string * ty)) (r : env) : Prop :=
  forall x t, In (x, t) U -> exists v, r x = Some v /\ of_type t v = true.

Lemma typed_type U e t : typed U e t -> exists k args, e = Node k t args.
Proof. intros H; inversion H; subst; unfold mkVar, IntLit, BoolLit, mkLit; eauto. Qed.

Lemma typed_incl_both U U' : incl U U' -> (forall e t, typed U e t -> typed U' e t) /\ (forall es ts, typeds U es ts -> typeds U' es ts).
Proof. intros INC. apply typed_both; intros; econstructor; eauto; apply INC; auto. Qed.
Lemma typed_incl U U' e t : incl U U' -> typed U e t -> typed U' e t.
Proof. intros INC. apply (typed_incl_both U U' INC). Qed.

Lemma int_inv v : of_type TInt v = true -> exists z, v = VInt z.
Proof. destruct v; cbn; try discriminate; eauto. Qed.
Lemma bool_inv v : of_type TBool v = true -> exists b, v = VBool b.
Proof. destruct v; cbn; try discriminate; eauto. Qed.

Lemma bools_of vs ts : Forall2 (fun t v => of_type t v = true) ts vs -> Forall (eq TBool) ts ->
  exists bs, vs = map VBool bs.
Proof.
  induction 1 as [|t v ts vs H F IH]; intros A; [exists []; auto|]. inversion A as [|? ? <- A']; subst.
  destruct (IH A') as (bs & ->). destruct (bool_inv v H) as (b & ->). exists (b :: bs). auto.
Qed.
Lemma as_bools bs : mapO as_bool (map VBool bs) = Some bs.
Proof. induction bs as [|b bs IH]; cbn; auto. now rewrite IH. Qed.
Lemma as_bools_gen vs bs : vs = map VBool bs -> mapO as_bool vs = Some bs.
Proof. intros ->. apply as_bools. Qed.

Lemma typed_eval_both U r : fit U r ->
  (forall e t, typed U e t -> exists v, eval I r e = Some v /\ of_type t v = true) /\
  (forall es ts, typeds U es ts -> exists vs, mapO (eval I r) es = Some vs /\ Forall2 (fun t v => of_type t v = true) ts vs).
Proof.
  intros FIT. apply typed_both.
  - intros x t IN. apply FIT, IN.
  - intros z. exists (VInt z). auto.
  - intros b. exists (VBool b). auto.
  - intros k t a b K _ (v & E & T) _ (w & E' & T'). destruct (int_inv v T) as (x & ->), (int_inv w T') as (y & ->).
    destruct k; try discriminate; injection K as <-; cbn; rewrite E, E'; cbn; eauto.
  - intros u a b _ (v & E & T) _ (w & E' & T'). cbn. rewrite E, E'. eauto.
  - intros k es ts K NE _ (vs & E & F) A. destruct (bools_of vs ts F A) as (bs & ->).
    destruct bs as [|b bs]; [destruct es; [congruence|]; cbn in E; destruct (eval I r e); [destruct (mapO (eval I r) es)|]; discriminate|].
    destruct K as [-> | ->]; cbn; rewrite E; unfold op_val; rewrite as_bools; eauto.
  - intros a _ (v & E & T). destruct (bool_inv v T) as (b & ->). cbn. rewrite E. eauto.
  - intros a b _ (v & E & T) _ (w & E' & T'). destruct (bool_inv v T) as (x & ->), (bool_inv w T') as (y & ->). cbn. rewrite E, E'. eauto.
  - intros c a b t _ (v & E & T) _ (w & E' & T') _ (u & E'' & T''). destruct (bool_inv v T) as ([] & ->); cbn; rewrite E; eauto.
  - intros f ts t es S _ (vs & E & F). destruct (RESP f ts t vs S F) as (v & C & T). exists v. cbn. rewrite E. auto.
  - exists []. auto.
  - intros e t es ts _ (v & E & T) _ (vs & E' & F). cbn. rewrite E, E'. eauto.
Qed.
Lemma typed_eval U r e t : fit U r -> typed U e t -> exists v, eval I r e = Some v /\ of_type t v = true.
Proof. intros F. apply (typed_eval_both U r F). Qed.
Lemma typed_bool U r e : fit U r -> typed U e TBool -> exists b, eval I r e = Some (VBool b).
Proof. intros F T. destruct (typed_eval U r e TBool F T) as (v & E & O). destruct (bool_inv v O) as (b & ->). eauto. Qed.

(** the value depends only on the variables of [U] *)
Lemma typed_agree_both U r r' : (forall x t, In (x, t) U -> r x = r' x) ->
  (forall e t, typed U e t -> eval I r e = eval I r' e) /\
  (forall es ts, typeds U es ts -> mapO (eval I r) es = mapO (eval I r') es).
Proof.
  intros AG. apply typed_both; intros; cbn;
    repeat match goal with H : eval I r ?e = _ |- _ => rewrite H | H : mapO (eval I r) ?e = _ |- _ => rewrite H end; auto.
  - apply (AG x t). auto.
  - destruct o as [-> | ->]; cbn; now rewrite ?H.
Qed.
Lemma typed_agree U r r' e t : (forall x t, In (x, t) U -> r x = r' x) -> typed U e t -> eval I r e = eval I r' e.
Proof. intros A. apply (typed_agree_both U r r' A). Qed.

(** ** Equal expressions *)

(** Python takes 0 for False and 1 for True. *)
Definition sim (t t' : ty) (v v' : val) : Prop :=
  (t = t' /\ v = v') \/
  (exists b, t = TInt /\ t' = TBool /\ v = VInt (b2z b) /\ v' = VBool b) \/
  (exists b, t = TBool /\ t' = TInt /\ v = VBool b /\ v' = VInt (b2z b)).
Lemma sim_same t v v' : sim t t v v' -> v = v'.
Proof. intros [[_ H]|[(b & H & H' & _)|(b & H & H' & _)]]; congruence. Qed.

Lemma val_eqb_sim t t' a b a' b' : sim t t' a a' -> sim t t' b b' -> val_eqb a b = val_eqb a' b'.
Proof.
  intros [[E1 E2]|[(b1 & E1 & E2 & E3 & E4)|(b1 & E1 & E2 & E3 & E4)]] [[F1 F2]|[(b2 & F1 & F2 & F3 & F4)|(b2 & F1 & F2 & F3 & F4)]];
    subst; try congruence; destruct b1, b2; reflexivity.
Qed.

Lemma typeds_length U es ts : typeds U es ts -> length es = length ts.
Proof. induction 1; cbn; auto. Qed.
Lemma typeds_bools U es ts : typeds U es ts -> Forall (eq TBool) ts -> Forall (fun e => typed U e TBool) es.
Proof. induction 1; intros F; constructor; inversion F; subst; auto. Qed.

Lemma kind_eqb_eq a b : kind_eqb a b = true -> a = b.
Proof. destruct a, b; cbn; congruence. Qed.

Lemma equal_both U r : fit U r -> NoDup (map fst U) ->
  (forall e t, typed U e t -> forall e' t', typed U e' t' -> expr_eqb e e' = true ->
     exists v v', eval I r e = Some v /\ eval I r e' = Some v' /\ sim t t' v v') /\
  (forall es ts, typeds U es ts ->
     (forall es', typeds U es' ts -> list_eqb expr_eqb es es' = true -> mapO (eval I r) es = mapO (eval I r) es') /\
     (forall es' ts', typeds U es' ts' -> Forall (eq TBool) ts -> Forall (eq TBool) ts' -> list_eqb expr_eqb es es' = true -> mapO (eval I r) es = mapO (eval I r) es')).
Proof.
  intros FIT ND.
  assert (FUN : forall x t t', In (x, t) U -> In (x, t') U -> t = t').
  { intros x t t' A B. clear FIT. induction U as [|[y u] U' IH]; [destruct A|]. cbn in ND. inversion ND as [|? ? NI ND']; subst.
    destruct A as [A|A], B as [B|B]; [congruence| | |auto]; exfalso; apply NI; apply in_map_iff;
      [injection A as -> ->; now exists (x, t') | injection B as -> ->; now exists (x, t)]. }
  apply typed_both.
  - intros x t IN e' t' T' E. inversion T'; subst; unfold mkVar, IntLit, BoolLit, mkLit in *; cbn in E; try (destruct k; discriminate); try discriminate;
      [|match goal with H : _ \/ _ |- _ => destruct H; subst; discriminate end].
    rewrite andb_true_r in E. apply String.eqb_eq in E; subst. rewrite <- (FUN _ _ _ IN H) in *. destruct (FIT _ _ IN) as (v & V & _).
    exists v, v. cbn. repeat split; auto. left. auto.
  - intros z e' t' T' E. inversion T'; subst; unfold mkVar, IntLit, BoolLit, mkLit in *; cbn in E; try (destruct k; discriminate); try discriminate.
    + rewrite andb_true_r in E. apply Z.eqb_eq in E; subst. exists (VInt z0), (VInt z0). repeat split; auto. left. auto.
    + rewrite andb_true_r in E. apply Z.eqb_eq in E; subst. exists (VInt (b2z b)), (VBool b). repeat split; auto. right. left. eauto.
    + match goal with H : _ \/ _ |- _ => destruct H; subst; discriminate end.
  - intros b e' t' T' E. inversion T'; subst; unfold mkVar, IntLit, BoolLit, mkLit in *; cbn in E; try (destruct k; discriminate); try discriminate.
    + rewrite andb_true_r in E. apply Z.eqb_eq in E; subst. exists (VBool b), (VInt (b2z b)). repeat split; auto. right. right. eauto.
    + rewrite andb_true_r in E. apply eqb_prop in E; subst. exists (VBool b0), (VBool b0). repeat split; auto. left. auto.
    + match goal with H : _ \/ _ |- _ => destruct H; subst; discriminate end.
  - intros k t a b K Ta IHa Tb IHb e' t' T' E. destruct (typed_type _ _ _ T') as (k' & args & ->). cbn [expr_eqb] in E.
    apply andb_true_iff in E as [EK E]. apply kind_eqb_eq in EK; subst k'. inversion T'; subst; try discriminate;
      [|match goal with H : _ \/ _ |- _ => destruct H; subst; discriminate end].
    cbn in E. rewrite andb_true_r in E. apply andb_true_iff in E as [E1 E2].
    destruct (IHa _ _ H4 E1) as (v & v' & V1 & V2 & S1), (IHb _ _ H5 E2) as (w & w' & W1 & W2 & S2).
    apply sim_same in S1, S2; subst. rewrite K in H2. injection H2 as <-.
    destruct (typed_eval U r _ _ FIT (t_bin U k t a b K Ta Tb)) as (u & EU & _). exists u, u. split; auto. split; [|left; auto].
    rewrite <- EU. destruct k; try discriminate; cbn; now rewrite V1, V2, W1, W2.
  - intros u a b Ta IHa Tb IHb e' t' T' E. inversion T'; subst; unfold mkVar, IntLit, BoolLit, mkLit in *; cbn in E; try (destruct k; discriminate); try discriminate;
      [|match goal with H : _ \/ _ |- _ => destruct H; subst; discriminate end].
    rewrite andb_true_r in E. apply andb_true_iff in E as [E1 E2].
    destruct (IHa _ _ H E1) as (v & v' & V1 & V2 & S1), (IHb _ _ H0 E2) as (w & w' & W1 & W2 & S2).
    exists (VBool (val_eqb v w)), (VBool (val_eqb v w)). cbn. rewrite V1, V2, W1, W2. cbn. repeat split; auto; [|left; auto].
    now rewrite (val_eqb_sim _ _ _ _ _ _ S1 S2).
  - intros k es ts K NE Tes [_ IH] A e' t' T' E. destruct (typed_type _ _ _ T') as (k' & args & ->). cbn [expr_eqb] in E.
    apply andb_true_iff in E as [EK E]. apply kind_eqb_eq in EK; subst k'. inversion T'; subst; try (destruct K; discriminate);
      try (destruct K; subst; discriminate).
    assert (EQ : mapO (eval I r) es = mapO (eval I r) args)
      by (match goal with T : typeds U args _, B : Forall (eq TBool) _ |- _ => exact (IH _ _ T A B E) | T : typeds U args ?ts1 |- _ => apply (IH _ ts1 T A); auto end). destruct (typed_eval U r _ _ FIT (t_andor U k es ts K NE Tes A)) as (v & V & _).
    exists v, v. split; auto. split; [|left; auto]. rewrite <- V. destruct K as [-> | ->]; cbn; now rewrite EQ.
  - intros a Ta IHa e' t' T' E. inversion T'; subst; unfold mkVar, IntLit, BoolLit, mkLit in *; cbn in E; try (destruct k; discriminate); try discriminate;
      [match goal with H : _ \/ _ |- _ => destruct H; subst; discriminate end|].
    rewrite andb_true_r in E. destruct (IHa _ _ H E) as (v & v' & V1 & V2 & S1). apply sim_same in S1; subst.
    destruct (typed_eval U r _ _ FIT (t_not U a Ta)) as (u & EU & _). exists u, u. split; auto. split; [|left; auto].
    rewrite <- EU. cbn. now rewrite V1, V2.
  - intros a b Ta IHa Tb IHb e' t' T' E. inversion T'; subst; unfold mkVar, IntLit, BoolLit, mkLit in *; cbn in E; try (destruct k; discriminate); try discriminate;
      [match goal with H : _ \/ _ |- _ => destruct H; subst; discriminate end|].
    rewrite andb_true_r in E. apply andb_true_iff in E as [E1 E2].
    destruct (IHa _ _ H E1) as (v & v' & V1 & V2 & S1), (IHb _ _ H0 E2) as (w & w' & W1 & W2 & S2). apply sim_same in S1, S2; subst.
    destruct (typed_eval U r _ _ FIT (t_implies U a b Ta Tb)) as (u & EU & _). exists u, u. split; auto. split; [|left; auto].
    rewrite <- EU. cbn. now rewrite V1, V2, W1, W2.
  - intros c a b t Tc IHc Ta IHa Tb IHb e' t' T' E. inversion T'; subst; unfold mkVar, IntLit, BoolLit, mkLit in *; cbn in E; try (destruct k; discriminate); try discriminate;
      [match goal with H : _ \/ _ |- _ => destruct H; subst; discriminate end|].
    rewrite andb_true_r in E. apply andb_true_iff in E as [E0 E]. apply andb_true_iff in E as [E1 E2].
    destruct (IHc _ _ H E0) as (u & u' & U1 & U2 & S0), (IHa _ _ H0 E1) as (v & v' & V1 & V2 & S1), (IHb _ _ H1 E2) as (w & w' & W1 & W2 & S2).
    apply sim_same in S0; subst. destruct (typed_bool U r c FIT Tc) as (b1 & B1). rewrite U1 in B1. injection B1 as ->.
    cbn. rewrite U1, U2. destruct b1; [exists v, v' | exists w, w']; auto.
  - intros f ts t es SF Tes [IH _] e' t' T' E. inversion T'; subst; unfold mkVar, IntLit, BoolLit, mkLit in *; cbn in E; try (destruct k; discriminate); try discriminate;
      [match goal with H : _ \/ _ |- _ => destruct H; subst; discriminate end|].
    apply andb_true_iff in E as [E0 E]. apply String.eqb_eq in E0; subst. rewrite SF in H. injection H as <- <-.
    destruct (typed_eval U r _ _ FIT (t_call U _ _ _ _ SF Tes)) as (u & EU & _). exists u, u. split; auto. split; [|left; auto].
    rewrite <- EU. cbn. now rewrite (IH _ H0 E).
  - split; intros es' ; [intros T E|intros ts' T _ _ E]; inversion T; subst; auto; discriminate.
  - intros e t es ts Te IHe Tes [IH1 IH2]. split.
    + intros es' T E. inversion T as [|e1 t1 es1 ts1 H1 H3]; subst. cbn in E. apply andb_true_iff in E as [E1 E2].
      destruct (IHe _ _ H1 E1) as (v & v' & V1 & V2 & S1). apply sim_same in S1; subst. cbn. rewrite V1, V2, (IH1 _ H3 E2). auto.
    + intros es' ts' T A A' E. inversion T as [|e1 t1 es1 ts1 H H0]; subst; [discriminate|]. cbn in E. apply andb_true_iff in E as [E1 E2].
      inversion A; inversion A'; subst.
      destruct (IHe _ _ H E1) as (v & v' & V1 & V2 & S1). apply sim_same in S1; subst. cbn. rewrite V1, V2. rewrite (IH2 _ _ H0); auto.
Qed.
Lemma equal_value U r e e' t : fit U r -> NoDup (map fst U) -> typed U e t -> typed U e' t -> expr_eqb e e' = true -> eval I r e = eval I r e'.
Proof.
  intros F N T T' E. destruct (proj1 (equal_both U r F N) e t T e' t T' E) as (v & v' & V & V' & S). apply sim_same in S. congruence.
Qed.
End Typed.
