(** Continuation of OptProofs3: which equations are dropped. *)

From Coq Require Import String List ZArith Bool Lia.
From Verif Require Import Ast Semantics Dict IrModel IrProofs IrProofs2 IrProofs3 IrProofs4 PySem OptProofs OptProofs2 PyProofs3 OptProofs3.
Import ListNotations.
Local Open Scope string_scope.
Local Open Scope list_scope.

(** [drops e D e']: [e'] is [e] with the equations in [D] replaced by new variables
    (and simplified in between) *)
Inductive drops : expr -> list (expr * nat) -> expr -> Prop :=
| d_var x t : drops (mkVar x t) [] (mkVar x t)
| d_lit a t : drops (mkLit a t) [] (mkLit a t)
| d_call f t l D l' : dropss l D l' -> drops (Node KCall t (Atom (PStr f) :: l)) D (Node KCall t (Atom (PStr f) :: l'))
| d_op k t l D l' : In k op_kinds -> dropss l D l' -> drops (Node k t l) D (Node k t l')
| d_eq t a b i : drops (Node KEq t [a; b]) [(Node KEq t [a; b], i)] (mkVar (useless_name i) TBool)
| d_same t x u u' : drops (Node KEq t [mkVar x u; mkVar x u']) [] (BoolLit true)
| d_simp e D e1 e2 : drops e D e1 -> simplify e1 = Ok e2 -> drops e D e2
with dropss : list expr -> list (expr * nat) -> list expr -> Prop :=
| ds_nil : dropss [] [] []
| ds_cons e D e' l Ds l' : drops e D e' -> dropss l Ds l' -> dropss (e :: l) (D ++ Ds) (e' :: l').
Scheme drops_mut := Induction for drops Sort Prop with dropss_mut := Induction for dropss Sort Prop.
Combined Scheme drops_both from drops_mut, dropss_mut.

(** occurrences in a list, and in the dropped equations *)
Fixpoint occs (x : string) (l : list expr) : nat := match l with [] => 0 | a :: r => occurrences x a + occs x r end.
Definition docc (x : string) (D : list (expr * nat)) : nat := occs x (map fst D).

Lemma occs_app x l m : occs x (l ++ m) = occs x l + occs x m.
Proof. induction l; cbn; auto. rewrite IHl. lia. Qed.
Lemma docc_app x D E : docc x (D ++ E) = docc x D + docc x E.
Proof. unfold docc. now rewrite map_app, occs_app. Qed.
Lemma occ_var x y t : occurrences x (mkVar y t) = if String.eqb x y then 1 else 0.
Proof. reflexivity. Qed.
Lemma occ_op x k t l : In k op_kinds -> occurrences x (Node k t l) = occs x l.
Proof. intros K. cbn [occurrences]. rewrite (op_not_var k t l K). induction l; cbn; auto. Qed.
Lemma occ_call x f t l : occurrences x (Node KCall t (Atom (PStr f) :: l)) = occs x l.
Proof. cbn. induction l; cbn; auto. Qed.
Lemma occs_in x a l : In a l -> occurrences x a <= occs x l.
Proof. induction l; cbn; intros []; subst; [lia|]. specialize (IHl H). lia. Qed.

Lemma drops_occ : (forall e D e', drops e D e' -> forall x, docc x D <= occurrences x e) /\
  (forall l D l', dropss l D l' -> forall x, docc x D <= occs x l).
Proof.
  apply drops_both; intros.
  - cbn. lia.
  - cbn. lia.
  - rewrite occ_call. auto.
  - rewrite occ_op by auto. auto.
  - unfold docc. cbn [map fst occs]. lia.
  - cbn. lia.
  - auto.
  - cbn. lia.
  - rewrite docc_app. cbn [occs]. specialize (H x). specialize (H0 x). lia.
Qed.

Lemma op_eval_cong I r r' k t l : In k op_kinds -> Forall (fun e => eval I r e = eval I r' e) l -> eval I r (Node k t l) = eval I r' (Node k t l).
Proof.
  intros K M.
  assert (M' : mapO (eval I r) l = mapO (eval I r') l) by (induction M as [|e l E _ IHl]; cbn; auto; now rewrite E, IHl).
  destruct (kind_eqb k KIte) eqn:E.
  - assert (k = KIte) by (destruct k; try discriminate E; auto). subst k.
    destruct l as [|c [|a [|b [|]]]]; auto. inversion M as [|? ? E1 M1]; subst. inversion M1 as [|? ? E2 M2]; subst. inversion M2 as [|? ? E3 _]; subst.
    cbn [eval]. now rewrite E1, E2, E3.
  - assert (X : forall r, eval I r (Node k t l) = match mapO (eval I r) l with Some vs => op_val I k vs | None => None end).
    { intros r0. destruct k; try reflexivity; exfalso; try discriminate E; clear -K; cbn in K; intuition discriminate. }
    now rewrite !X, M'.
Qed.
Lemma op_eval_cong2 I r r' k t l l' : In k op_kinds -> Forall2 (fun e e' => eval I r' e' = eval I r e) l l' -> eval I r' (Node k t l') = eval I r (Node k t l).
Proof.
  intros K M.
  assert (M' : mapO (eval I r') l' = mapO (eval I r) l) by (induction M as [|e e' l l' E _ IHl]; cbn; auto; now rewrite E, IHl).
  destruct (kind_eqb k KIte) eqn:E.
  - assert (k = KIte) by (destruct k; try discriminate E; auto). subst k.
    destruct M as [|c c' ? ? E1 M1]; [reflexivity|]. destruct M1 as [|a a' ? ? E2 M2]; [reflexivity|]. destruct M2 as [|b b' ? ? E3 M3]; [reflexivity|]. destruct M3; [|reflexivity].
    cbn [eval]. now rewrite E1, E2, E3.
  - assert (X : forall r l, eval I r (Node k t l) = match mapO (eval I r) l with Some vs => op_val I k vs | None => None end).
    { intros r0 l0. destruct k; try reflexivity; exfalso; try discriminate E; clear -K; cbn in K; intuition discriminate. }
    now rewrite !X, M'.
Qed.

Section Sem.
Variables (F : dict (list ty * ty)) (G : string -> option ty) (I : interp).
Hypothesis TOT : total F I.

Lemma typed_agree r r' e t : typed F G e t -> (forall y, occurrences y e > 0 -> r y = r' y) -> eval I r e = eval I r' e.
Proof.
  revert e t. apply (typed_ind' F G (fun e t => (forall y, occurrences y e > 0 -> r y = r' y) -> eval I r e = eval I r' e)).
  - intros x t D H. apply H. rewrite occ_var, String.eqb_refl. lia.
  - reflexivity.
  - reflexivity.
  - intros f ts t l D _ IH H.
    assert (M : mapO (eval I r) l = mapO (eval I r') l).
    { assert (H' : forall y, occs y l > 0 -> r y = r' y) by (intros y O; apply H; now rewrite occ_call). clear H D.
      induction IH as [|e t' l ts E _ IHl]; cbn; auto. rewrite E, IHl; auto; intros y O; apply H'; cbn; lia. }
    cbn [eval]. now rewrite M.
  - intros k l ts t O _ IH H.
    assert (M : Forall (fun e => eval I r e = eval I r' e) l).
    { assert (H' : forall y, occs y l > 0 -> r y = r' y) by (intros y OO; apply H; now rewrite (occ_op _ _ _ _ (op_kind _ _ _ O))). clear H O.
      induction IH as [|e t' l ts E _ IHl]; constructor; [apply E|apply IHl]; intros y O; apply H'; cbn; lia. }
    clear IH H. apply op_kind in O. now apply op_eval_cong.
Qed.

Variables (r r' : env) (G' : string -> option ty).
Hypothesis FIT : suits G r.
Hypothesis FIT' : suits G' r'.

Hypothesis EXT : forall e t, typed F G e t -> typed F G' e t.

(** what is kept in [e'] is typed like [e] *)
Definition kept (D : list (expr * nat)) : Prop := forall q i, In (q, i) D -> G' (useless_name i) = Some TBool.

Lemma drops_typed :
  (forall e D e', drops e D e' -> kept D -> forall t, typed F G e t -> typed F G' e' t) /\
  (forall l D l', dropss l D l' -> kept D -> forall ts, Forall2 (typed F G) l ts -> Forall2 (typed F G') l' ts).
Proof.
  apply drops_both.
  - intros x t _ u T. auto.
  - intros a t _ u T. auto.
  - intros f t l D l' _ IH K u T. inversion T as [| | |? ts ? ? DG TL|? ? ts ? O TL]; subst; [|discriminate O]. eapply ty_call; eauto.
  - intros k t l D l' KO _ IH K u T. inversion T as [| | |? ts ? ? DG TL|? ? ts ? O TL]; subst; try (cbn in KO; intuition discriminate). eapply ty_op; eauto.
  - intros t a b i K u T. inversion T as [| | | |? ? ts ? O TL]; subst. apply op_cases in O. inversion O; subst; try (cbn in *; intuition discriminate).
    apply ty_var. eapply K. now left.
  - intros t x u u' K v T. inversion T as [| | | |? ? ts ? O TL]; subst. apply op_cases in O. inversion O; subst; try (cbn in *; intuition discriminate). constructor.
  - intros e D e1 e2 _ IH S K t T. specialize (IH K t T). destruct (simplify_typed F G' _ _ IH) as (e3 & S3 & T3). congruence.
  - intros K ts T. inversion T; subst. constructor.
  - intros e D e' l Ds l' _ IH _ IHs K ts T. inversion T; subst. constructor; [apply IH | apply IHs]; auto; intros q i IN; apply (K q i); apply in_or_app; auto.
Qed.

Lemma drops_sem :
  (forall e D e', drops e D e' -> kept D -> forall t, typed F G e t ->
     (forall q i, In (q, i) D -> eval I r q = r' (useless_name i)) ->
     (forall y, docc y D < occurrences y e -> r y = r' y) -> eval I r' e' = eval I r e) /\
  (forall l D l', dropss l D l' -> kept D -> forall ts, Forall2 (typed F G) l ts ->
     (forall q i, In (q, i) D -> eval I r q = r' (useless_name i)) ->
     (forall y, docc y D < occs y l -> r y = r' y) -> Forall2 (fun e e' => eval I r' e' = eval I r e) l l').
Proof.
  apply drops_both.
  - intros x t _ u T _ H. cbn [eval mkVar]. symmetry. apply H. rewrite occ_var, String.eqb_refl. cbn. lia.
  - reflexivity.
  - intros f t l D l' _ IH K u T Q H. inversion T as [| | |? ts ? ? DG TL|? ? ts ? O TL]; subst; [|discriminate O].
    assert (M : Forall2 (fun e e' => eval I r' e' = eval I r e) l l') by (eapply IH; eauto; intros y; rewrite <- (occ_call y f u l); apply H).
    assert (M' : mapO (eval I r') l' = mapO (eval I r) l) by (clear -M; induction M as [|e e' l l' E _ IHl]; cbn; auto; now rewrite E, IHl).
    cbn [eval]. now rewrite M'.
  - intros k t l D l' KO _ IH K u T Q H. inversion T as [| | |? ts ? ? DG TL|? ? ts ? O TL]; subst; try (cbn in KO; intuition discriminate).
    apply op_eval_cong2; auto. eapply IH; eauto. intros y. rewrite <- (occ_op y k u l KO). apply H.
  - intros t a b i K u T Q _. symmetry. exact (Q _ i (or_introl eq_refl)).
  - intros t x u u' K v T _ _. inversion T as [| | | |? ? ts ? O TL]; subst. inversion TL as [|? ? ? ? T1 _]; subst.
    destruct (typed_value F G I r TOT FIT _ _ T1) as (w & W & _). cbn [eval mkVar mapO] in *. rewrite W. cbn. now rewrite val_eqb_refl.
  - intros e D e1 e2 DR IH S K t T Q H. rewrite <- (IH K t T Q H). eapply simplify_same; eauto. eapply drops_typed; eauto.
  - constructor.
  - intros e D e' l Ds l' DR IH DRS IHs K ts T Q H. inversion T; subst.
    pose proof (proj1 drops_occ _ _ _ DR) as L1. pose proof (proj2 drops_occ _ _ _ DRS) as L2.
    constructor.
    + eapply IH; eauto.
      * intros q i IN. apply (K q i). apply in_or_app. auto.
      * intros q i IN. apply Q. apply in_or_app. auto.
      * intros y0 Y. apply H. rewrite docc_app. cbn [occs]. specialize (L1 y0). specialize (L2 y0). lia.
    + eapply IHs; eauto.
      * intros q i IN. apply (K q i). apply in_or_app. auto.
      * intros q i IN. apply Q. apply in_or_app. auto.
      * intros y0 Y. apply H. rewrite docc_app. cbn [occs]. specialize (L1 y0). specialize (L2 y0). lia.
Qed.
End Sem.

(* ------------------------------------------------------------------ *)
(** * What [optimize] does on a quiet condition *)

Lemma count_nodup e : forall d, NoDup (dkeys d) -> NoDup (dkeys (count_uses e d)).
Proof.
  induction e as [a|k t args IH] using expr_ind'; intros d N; auto. cbn [count_uses]. destruct (is_var (Node k t args)).
  - destruct args as [|[[]|] ?]; auto. destruct (dget d s); now apply dset_nodup.
  - revert d N. induction IH as [|a l Ha _ IHl]; intros d N; auto.
Qed.
Lemma count_get e x n : dget (count_uses e []) x = Some n -> n = occurrences x e.
Proof. intros D. pose proof (count_uses_exact e [] x) as C. unfold count_of in C. rewrite D in C. cbn in C. lia. Qed.
Lemma count_in e x : occurrences x e > 0 -> dget (count_uses e []) x = Some (occurrences x e).
Proof.
  intros O. pose proof (count_uses_exact e [] x) as C. unfold count_of in C. destruct (dget (count_uses e []) x) as [n|]; cbn in C; [congruence | lia].
Qed.

(** names that are used elsewhere stay in the list *)
Lemma elsewhere_spec counts : forall local ce, (forall x n, In (x, n) local -> dget counts x <> None) ->
  exists ce', elsewhere counts local ce = Ok ce' /\
    forall x, In x ce -> (forall n, In (x, n) local -> dget counts x <> Some n) -> In x ce'.
Proof.
  induction local as [|[x n] local IH]; intros ce H; cbn [elsewhere]; [eauto|].
  destruct (dget counts x) as [c|] eqn:D; [|exfalso; apply (H x n); cbn; auto].
  destruct (IH (if Nat.eqb n c then filter (fun y => negb (String.eqb x y)) ce else ce)) as (ce' & E & S).
  { intros y m IN. apply (H y m). now right. }
  exists ce'. split; auto. intros y IN NE. apply S.
  - destruct (Nat.eqb_spec n c) as [->|]; auto. apply filter_In. split; auto. destruct (String.eqb_spec x y) as [->|]; auto.
    exfalso. apply (NE c); cbn; auto.
  - intros m IM. apply NE. now right.
Qed.

(** nothing is collected when all equated variables are used elsewhere *)
Lemma collect_quiet ce e : plain e -> (forall x, equated x e -> smem x ce = true) -> forall into conf, collect ce e into conf = Ok (into, conf).
Proof.
  induction e as [a|k t args IH] using expr_ind'; intros P H into conf; [reflexivity|].
  destruct k; try reflexivity.
  - (* Eq *)
    destruct args as [|a [|b [|]]]; try reflexivity. cbn [collect].
    apply plain_kinds in P as [[? _]|[[? _]|[[? _]|[_ P]]]]; try discriminate. inversion P as [|? ? Pa P']; subst. inversion P' as [|? ? Pb _]; subst.
    assert (A : forall x, var_name a = Some x -> smem x ce = true).
    { intros x V. destruct (var_name_plain _ _ Pa V) as (u & ->). apply H. apply eq_left. }
    assert (B : forall x, var_name b = Some x -> smem x ce = true).
    { intros x V. destruct (var_name_plain _ _ Pb V) as (u & ->). apply H. apply eq_right. }
    destruct (var_name a) as [x|], (var_name b) as [y|]; rewrite ?(A x), ?(B y) by auto; reflexivity.
  - (* And *)
    cbn [collect]. apply plain_kinds in P as [[? _]|[[? _]|[[? _]|[_ P]]]]; try discriminate.
    assert (H' : forall a x, In a args -> equated x a -> smem x ce = true) by (intros a x IN Q; apply H; eapply eq_and; eauto). clear H.
    induction IH as [|a l Ha _ IHl]; auto. inversion P; subst. rewrite Ha; auto; [|intros x; apply H'; now left]. cbn [bindR fst snd]. apply IHl; auto. intros b x IN. apply H'. now right.
Qed.

Section Opt.
Variables (F : dict (list ty * ty)) (G : string -> option ty) (vc : expr).
Hypothesis NEW : forall i, G (useless_name i) = None.
Hypothesis QUIET : quiet vc.

Lemma typed_plain e t : typed F G e t -> plain e.
Proof.
  revert e t. apply typed_ind'.
  - intros x t D. constructor. intros i ->. rewrite NEW in D. discriminate.
  - constructor.
  - constructor.
  - intros f ts t l _ _ H. constructor. clear -H. induction H; constructor; auto.
  - intros k l ts t O _ H. apply pl_op; [eapply op_kind; eauto|]. clear -H. induction H; constructor; auto.
Qed.
Lemma rewrite_nothing e t : typed F G e t -> rewrite [] e = Ok e.
Proof.
  revert e t. apply typed_ind'; try reflexivity.
  - intros f ts t l D _ H.
    assert (M : mapR (rewrite []) l = Ok l) by (clear D; induction H as [|e t' l ts E _ IH]; cbn; auto; rewrite E; cbn; now rewrite IH).
    cbn [rewrite is_var mapR bindR]. rewrite M. reflexivity.
  - intros k l ts t O TL H.
    assert (M : mapR (rewrite []) l = Ok l) by (clear O TL; induction H as [|e t' l ts E _ IH]; cbn; auto; rewrite E; cbn; now rewrite IH).
    cbn [rewrite]. rewrite (op_not_var k t l (op_kind _ _ _ O)), M. cbn [bindR]. eapply rebuild_typed; eauto. eapply typeds_type; eauto.
Qed.

(** no variable of the vocabulary has other variables inside *)
Lemma occ_sub x s e t : typed F G e t -> subexpr s e -> is_expr s = true -> occurrences x s <= occurrences x e.
Proof.
  intros T. revert e t T. apply (typed_ind' F G (fun e t => subexpr s e -> is_expr s = true -> occurrences x s <= occurrences x e)).
  - intros y t _ S E. inversion S as [|? ? ? a IN S']; subst; auto. destruct IN as [<-|[]]. inversion S'; subst; discriminate E.
  - intros y S E. inversion S as [|? ? ? a IN S']; subst; auto. destruct IN as [<-|[]]. inversion S'; subst; discriminate E.
  - intros y S E. inversion S as [|? ? ? a IN S']; subst; auto. destruct IN as [<-|[]]. inversion S'; subst; discriminate E.
  - intros f ts t l _ _ H S E. inversion S as [|? ? ? a IN S']; subst; auto. rewrite occ_call. destruct IN as [<-|IN]; [inversion S'; subst; discriminate E|].
    etransitivity; [|exact (occs_in x a l IN)]. clear -H IN S' E. induction H; destruct IN; subst; auto.
  - intros k l ts t O _ H S E. inversion S as [|? ? ? a IN S']; subst; auto. rewrite (occ_op _ _ _ _ (op_kind _ _ _ O)).
    etransitivity; [|exact (occs_in x a l IN)]. clear -H IN S' E. induction H; destruct IN; subst; auto.
Qed.

Lemma equated_occ x e t : typed F G e t -> equated x e -> occurrences x e > 0.
Proof.
  intros T E. induction E as [u v b|u v a|u l a IN E IH] in t, T |- *.
  - rewrite occ_op by (cbn; tauto). cbn [occs]. rewrite occ_var, String.eqb_refl. lia.
  - rewrite occ_op by (cbn; tauto). cbn [occs]. rewrite occ_var, String.eqb_refl. lia.
  - inversion T as [| | | |? ? ts ? O TL]; subst. rewrite occ_op by (cbn; tauto). pose proof (occs_in x a l IN).
    assert (exists t', typed F G a t') as (t' & Ta). { clear -TL IN. induction TL; destruct IN; subst; eauto. }
    specialize (IH _ Ta). lia.
Qed.

Lemma smem_true x l : In x l -> smem x l = true.
Proof. intros IN. unfold smem. apply existsb_exists. exists x. split; auto. apply String.eqb_refl. Qed.

Lemma implies_nothing t a b u : typed F G vc TBool -> typed F G (Node KImplies t [a; b]) u -> subexpr (Node KImplies t [a; b]) vc ->
  opt_implies (count_uses vc []) (Node KImplies t [a; b]) [a; b] = Ok (Node KImplies t [a; b]).
Proof.
  intros TV T S. cbn [opt_implies]. set (e := Node KImplies t [a; b]) in *.
  destruct (elsewhere_spec (count_uses vc []) (count_uses e []) (dkeys (count_uses vc []))) as (ce & E & SP).
  { intros x n IN. assert (N : dget (count_uses e []) x = Some n) by (apply nodup_dget; auto; apply count_nodup; constructor).
    assert (O : occurrences x e > 0).
    { destruct (occurrences x e) eqn:Z; [|lia]. assert (K : dmem (count_uses e []) x = true) by (unfold dmem; now rewrite N). rewrite count_uses_keys, Z in K. discriminate K. }
    rewrite count_in; [discriminate|]. pose proof (occ_sub x e vc TBool TV S eq_refl). lia. }
  rewrite E. cbn [bindR].
  assert (Ta : exists t', typed F G a t').
  { inversion T as [| | | |? ? ts ? O TL]; subst. inversion TL; subst. eauto. }
  destruct Ta as (ta & Ta).
  rewrite collect_quiet; [|eapply typed_plain; eauto|].
  - cbn [bindR fst prune_rewrites filter]. eapply rewrite_nothing; eauto.
  - intros x Q. apply smem_true. apply SP.
    + assert (O : occurrences x vc > 0).
      { pose proof (equated_occ x a ta Ta Q). pose proof (occ_sub x e vc TBool TV S eq_refl).
        assert (occurrences x a <= occurrences x e) by (eapply occ_sub; eauto; [eapply sub_arg; [now left | apply sub_refl] | destruct Ta; reflexivity]). lia. }
      apply count_in in O. apply PyProofs3.dget_in in O. apply (in_map fst) in O. exact O.
    + intros n IN D. apply count_get in D. assert (N : dget (count_uses e []) x = Some n) by (apply nodup_dget; auto; apply count_nodup; constructor).
      apply count_get in N. apply (QUIET t a b x S Q). fold e. congruence.
Qed.
End Opt.
