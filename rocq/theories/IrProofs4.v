(** Sharing of choices and pruning of conditionals. *)

From Coq Require Import String List ZArith Bool Lia.
From Verif Require Import Ast Semantics Dict IrModel IrProofs IrProofs2 IrProofs3.
Import ListNotations.
Local Open Scope string_scope.
Local Open Scope list_scope.

(* ------------------------------------------------------------------ *)
(** * Sharing *)

(** [expands ros defs e e']: replacing every reference to a shared choice in
    [e] by its (expanded) definition in [defs] gives [e']. *)
Inductive expands (ros : bool) (defs : list expr) : expr -> expr -> Prop :=
| ex_atom a : expands ros defs (Atom a) (Atom a)
| ex_ref i t d e : nth_error defs i = Some d -> expands ros defs d e ->
    expands ros defs (mkVar (choice_ref ros i) t) e
| ex_node k t args args' :
    (forall i t', Node k t args <> mkVar (choice_ref ros i) t') ->
    Forall2 (expands ros defs) args args' ->
    expands ros defs (Node k t args) (Node k t args').

(** [s] is a subexpression of [e] *)
Inductive subexpr (s : expr) : expr -> Prop :=
| sub_refl : subexpr s s
| sub_arg k t args a : In a args -> subexpr s a -> subexpr s (Node k t args).

Lemma subexpr_trans a b c : subexpr a b -> subexpr b c -> subexpr a c.
Proof. intros H1 H2; induction H2; auto. eapply sub_arg; eauto. Qed.

(** no variable of [e] is spelled like a reference to a shared choice *)
Definition no_ref_names (ros : bool) (e : expr) : Prop :=
  forall i t, ~ subexpr (mkVar (choice_ref ros i) t) e.

(** classes that [replaceExprs] supports *)
Definition sharable_kind (k : kind) : bool :=
  match k with
  | KFnDeclRec | KFnDecl | KTarget | KAxiom | KAssert | KConstraint | KSynth => false
  | _ => true
  end.
Definition sharable (e : expr) : Prop :=
  forall k t args, subexpr (Node k t args) e -> sharable_kind k = true.

Fixpoint size (e : expr) : nat :=
  match e with
  | Atom _ => 1
  | Node _ _ args => S ((fix go l := match l with [] => 0 | a :: r => size a + go r end) args)
  end.

Lemma size_arg k t args a : In a args -> size a < size (Node k t args).
Proof.
  simpl. induction args as [|b r IH]; intros []; [subst; lia|].
  specialize (IH H). lia.
Qed.

Lemma size_sub s e : subexpr s e -> size s <= size e.
Proof. induction 1; auto. pose proof (size_arg k t args a H). lia. Qed.

Lemma eqb_size e1 : forall e2, expr_eqb e1 e2 = true -> size e1 = size e2.
Proof.
  induction e1 using expr_ind'; destruct e2; cbn [expr_eqb]; try discriminate; auto.
  rewrite andb_true_iff. intros [_ E]. simpl. f_equal.
  revert args0 E. induction H; destruct args0; simpl; try discriminate; auto.
  rewrite andb_true_iff. intros [E1 E2]. rewrite (H _ E1), (IHForall _ E2). reflexivity.
Qed.

Lemma wf_sub s e : subexpr s e -> wf_arg e -> wf_arg s.
Proof.
  induction 1; auto. intros [W|[x E]]; [|discriminate].
  apply IHsubexpr. pose proof (wf_args W) as WA. rewrite Forall_forall in WA. auto.
Qed.

Lemma find_index_some A (p : A -> bool) l i :
  find_index p l = Some i -> exists a, nth_error l i = Some a /\ p a = true.
Proof.
  revert i. induction l; simpl; intros i; [discriminate|].
  destruct (p a) eqn:P.
  - intros E; injection E as <-. simpl. eauto.
  - destruct (find_index p l); simpl; [|discriminate]. intros E; injection E as <-. simpl. auto.
Qed.

Lemma find_index_none A (p : A -> bool) l :
  find_index p l = None -> forall a, In a l -> p a = false.
Proof.
  induction l; simpl; intros E b; [tauto|].
  destruct (p a) eqn:P; [discriminate|]. destruct (find_index p l); [discriminate|].
  intros [<-|H]; auto.
Qed.

Lemma rebuild_replace_eq k t args : sharable_kind k = true ->
  rebuild_replace k t args = rebuild k t args.
Proof. destruct k; simpl; (reflexivity || discriminate). Qed.

(** replacing keeps the expression constructible and of the same type *)
Lemma replace_exprs_wf ros common e : wf e -> sharable e ->
  exists e', replace_exprs ros common e = Ok e' /\ wf e' /\ type_of e' = type_of e.
Proof.
  induction e using expr_ind'; intros W S; [now apply wf_not_atom in W|].
  cbn [replace_exprs]. destruct (find_index (expr_eqb (Node k t args)) common).
  - eexists; split; [reflexivity|]. split; [constructor | reflexivity].
  - assert (HF : Forall (fun a => wf a ->
       exists b, replace_exprs ros common a = Ok b /\ wf b /\ type_of b = type_of a) args).
    { rewrite Forall_forall in *. intros a Ha Wa. apply H; auto.
      intros k' t' args' Hs. eapply S. eapply sub_arg; eauto. }
    destruct (@map_args_wf (replace_exprs ros common) k t args W (fun a => eq_refl) HF)
      as (args' & M & A & R & W').
    rewrite M. cbn [bindR]. rewrite rebuild_replace_eq by (eapply S; constructor).
    rewrite R. eexists; split; [reflexivity|]. auto.
Qed.

Lemma replace_exprs_node ros common k t args e' :
  wf (Node k t args) -> sharable (Node k t args) ->
  (args' <- mapR (replace_exprs ros common) args ;; rebuild_replace k t args') = Ok e' ->
  exists args', e' = Node k t args' /\
    Forall2 (fun a b => replace_exprs ros common a = Ok b) args args'.
Proof.
  intros W S E.
  assert (HF : Forall (fun a => wf a ->
     exists b, replace_exprs ros common a = Ok b /\ wf b /\ type_of b = type_of a) args).
  { rewrite Forall_forall in *. intros a Ha Wa. apply replace_exprs_wf; auto.
    intros k' t' args' Hs. eapply S. eapply sub_arg; eauto. }
  destruct (@map_args_wf (replace_exprs ros common) k t args W (fun a => eq_refl) HF)
    as (args' & M & A & R & W').
  rewrite M in E. cbn [bindR] in E. rewrite rebuild_replace_eq in E by (eapply S; constructor).
  rewrite R in E. injection E as <-. exists args'. split; auto. now apply mapR_ok_inv.
Qed.

Lemma no_ref_sub ros s e : subexpr s e -> no_ref_names ros e -> no_ref_names ros s.
Proof. intros H N i t X. eapply N, subexpr_trans; eauto. Qed.

Lemma sharable_sub s e : subexpr s e -> sharable e -> sharable s.
Proof. intros H N k t args X. eapply N, subexpr_trans; eauto. Qed.

Lemma Forall2_nth A B (R : A -> B -> Prop) l l' : Forall2 R l l' ->
  forall i a, nth_error l i = Some a -> exists b, nth_error l' i = Some b /\ R a b.
Proof.
  induction 1; intros i a E; destruct i; simpl in *; try discriminate; eauto.
  injection E as ->. eauto.
Qed.

Section Generic.
  Variables (ros : bool) (common defs : list expr).
  Variable Q : expr -> expr -> Prop.
  Hypothesis Q_refl : forall e, Q e e.
  Hypothesis Q_trans : forall a b c, Q a b -> Q b c -> Q a c.
  Hypothesis Q_cong : forall k t l l', Forall2 Q l l' -> Q (Node k t l) (Node k t l').
  Hypothesis Common_ok : forall c, In c common ->
    wf c /\ sharable c /\ no_ref_names ros c /\ is_choose c = true.
  Hypothesis Defs : mapR (replace_exprs_skip ros common) common = Ok defs.

  Lemma replace_expands n : forall e e', size e <= n ->
    (forall s c i, subexpr s e \/ (exists c0, In c0 common /\ subexpr s c0) ->
        find_index (expr_eqb s) common = Some i -> nth_error common i = Some c -> Q c s) ->
    wf_arg e -> sharable e -> no_ref_names ros e ->
    replace_exprs ros common e = Ok e' ->
    exists e'', expands ros defs e' e'' /\ Q e'' e.
  Proof.
    induction n; intros e e' SZ CO W S N R.
    - destruct e; simpl in SZ; lia.
    - destruct e as [a|k t args].
      { simpl in R. injection R as <-. exists (Atom a). split; auto. constructor. }
      destruct W as [W|[x E]]; [|discriminate].
      cbn [replace_exprs] in R.
      assert (ARGS : forall k0 t0 args0 args1, 
         wf (Node k0 t0 args0) -> sharable (Node k0 t0 args0) -> no_ref_names ros (Node k0 t0 args0) ->
         size (Node k0 t0 args0) <= Datatypes.S n ->
         (subexpr (Node k0 t0 args0) (Node k t args) \/ In (Node k0 t0 args0) common) ->
         Forall2 (fun a b => replace_exprs ros common a = Ok b) args0 args1 ->
         exists args2, Forall2 (expands ros defs) args1 args2 /\ Forall2 Q args2 args0).
      { intros k0 t0 args0 args1 W0 S0 N0 SZ0 WHERE F2.
        pose proof (wf_args W0) as WA.
        assert (SB : forall a, In a args0 -> subexpr a (Node k0 t0 args0)).
        { intros a Ha. eapply sub_arg; eauto. constructor. }
        assert (SL : forall a, In a args0 -> size a < size (Node k0 t0 args0))
          by (intros; now apply size_arg).
        revert SB SL WA. clear W0. remember (Node k0 t0 args0) as nd. clear Heqnd.
        induction F2; intros SB SL WA; [exists []; auto|].
        inversion WA; subst. destruct IHF2 as (args2 & F3 & F4); auto.
        { intros; apply SB; right; auto. } { intros; apply SL; right; auto. }
        destruct (IHn x y) as (e'' & E1 & E2); auto.
        + specialize (SL x (or_introl eq_refl)). lia.
        + intros s c i [Hs|Hs]; apply CO.
          * destruct WHERE as [Hw|Hw].
            -- left. eapply subexpr_trans; [exact Hs|]. eapply subexpr_trans; [|exact Hw].
               apply SB; left; auto.
            -- right. exists nd. split; auto.
               eapply subexpr_trans; [exact Hs|]. apply SB; left; auto.
          * right; auto.
        + eapply sharable_sub; [apply SB; left; reflexivity | auto].
        + eapply no_ref_sub; [apply SB; left; reflexivity | auto].
        + exists (e'' :: args2). split; constructor; auto. }
      destruct (find_index (expr_eqb (Node k t args)) common) as [i|] eqn:FI.
      + injection R as <-.
        destruct (find_index_some _ _ _ _ FI) as (c & NC & EC).
        assert (IC : In c common) by (eapply nth_error_In; eauto).
        destruct (Common_ok c IC) as (Wc & Sc & Nc & Kc).
        assert (ND : exists d, nth_error defs i = Some d /\ replace_exprs_skip ros common c = Ok d).
        { pose proof (mapR_ok_inv _ _ Defs) as FD. destruct (Forall2_nth _ _ _ _ _ FD _ _ NC) as (d & ? & ?). eauto. }
        destruct ND as (d & ND & RD).
        destruct c as [|kc tc argsc]; [discriminate|].
        destruct kc; try discriminate Kc.
        cbn [replace_exprs_skip] in RD.
        destruct (replace_exprs_node _ _ _ _ _ _ Wc Sc RD) as (args1 & -> & F1).
        pose proof (eqb_size _ _ EC) as SE.
        destruct (ARGS _ _ _ _ Wc Sc Nc ltac:(lia) (or_intror IC) F1) as (args2 & X1 & X2).
        exists (Node KChoose tc args2). split.
        * eapply ex_ref; [exact ND|]. constructor; auto. intros; discriminate.
        * eapply Q_trans; [apply Q_cong; exact X2|].
          eapply CO; [left; constructor | exact FI | exact NC].
      + destruct (replace_exprs_node _ _ _ _ _ _ W S R) as (args1 & -> & F1).
        destruct (ARGS _ _ _ _ W S N SZ (or_introl (sub_refl _)) F1) as (args2 & X1 & X2).
        exists (Node k t args2). split; [|now apply Q_cong].
        constructor; auto. intros j t' E. unfold mkVar in E. injection E as -> -> ->.
        inversion F1 as [|x ? ? ? Rx F1' E1 E2]; subst. inversion F1'; subst.
        pose proof (wf_args W) as WA. inversion WA as [|? ? Wx ?]; subst.
        destruct Wx as [Wx|[z ->]].
        * destruct (replace_exprs_wf ros common x Wx) as (b & Eb & Wb & _).
          { eapply sharable_sub; [|exact S]. eapply sub_arg; [left; reflexivity | constructor]. }
          rewrite Eb in Rx. injection Rx as ->. now apply wf_not_atom in Wb.
        * simpl in Rx. injection Rx as ->. eapply N. constructor.
  Qed.
End Generic.

Lemma Forall2_refl A (R : A -> A -> Prop) l : (forall a, R a a) -> Forall2 R l l.
Proof. intros; induction l; auto. Qed.

Lemma In_set_nth A i (x : A) l y : In y (set_nth i x l) -> y = x \/ In y l.
Proof.
  revert i. induction l; destruct i; simpl; auto; intros []; auto.
  destruct (IHl _ H); auto.
Qed.

(** everything collected is a subexpression *)
Lemma find_common_sub e : forall cnts p, In p (find_common e cnts) ->
  In p cnts \/ (subexpr (fst p) e /\ is_expr (fst p) = true).
Proof.
  induction e using expr_ind'; intros cnts p; [simpl; auto|].
  cbn [find_common].
  destruct (find_index (fun q => expr_eqb (Node k t args) (fst q)) cnts) eqn:F.
  - intros I. apply In_set_nth in I as [->|I]; auto. right. split; [constructor | reflexivity].
  - assert (G : forall l acc, Forall (fun e => forall cnts p, In p (find_common e cnts) ->
               In p cnts \/ (subexpr (fst p) e /\ is_expr (fst p) = true)) l -> incl l args ->
      In p ((fix go (l : list expr) (acc : list (expr * nat)) :=
         match l with [] => acc | a :: r => go r (find_common a acc) end) l acc) ->
      In p acc \/ (subexpr (fst p) (Node k t args) /\ is_expr (fst p) = true)).
    { induction l; intros acc HF IN I; auto. inversion HF; subst.
      apply IHl in I; auto; [|intros x Hx; apply IN; right; auto].
      destruct I as [I|I]; auto. apply H2 in I as [I|[I1 I2]]; auto.
      right. split; auto. eapply sub_arg; [apply IN; left; reflexivity | auto]. }
    intros I. apply G in I; auto using incl_refl.
    destruct I as [I|I]; auto. apply in_app_iff in I as [I|[<-|[]]]; auto.
    right. split; [constructor | reflexivity].
Qed.

Lemma Forall2_eqb l l' : Forall2 (fun a b => expr_eqb a b = true) l l' ->
  list_eqb expr_eqb l l' = true.
Proof. induction 1; simpl; auto. now rewrite H, IHForall2. Qed.

Definition shared_of (body : expr) : list expr :=
  filter is_choose (map fst (find_common body [])).

Lemma shared_of_ok ros body : wf body -> sharable body -> no_ref_names ros body ->
  forall c, In c (shared_of body) ->
    (wf c /\ sharable c /\ no_ref_names ros c /\ is_choose c = true) /\ subexpr c body.
Proof.
  intros W S N c H. unfold shared_of in H. apply filter_In in H as [H K].
  apply in_map_iff in H as (p & <- & H). apply find_common_sub in H as [[]|[H1 H2]].
  repeat split; eauto using sharable_sub, no_ref_sub.
  destruct (wf_sub _ _ H1 (or_introl W)) as [|[x E]]; auto. rewrite E in H2. discriminate.
Qed.

Theorem share_choices_total ros body : wf body -> sharable body ->
  exists body' defs, share_choices ros body = Ok (body', defs).
Proof.
  intros W S. unfold share_choices.
  destruct (replace_exprs_wf ros (shared_of body) body W S) as (b' & E & _ & _).
  unfold shared_of in E. rewrite E. cbn [bindR].
  match goal with |- context [mapR ?f ?l] => assert (X : exists l', mapR f l = Ok l') end.
  { assert (X : forall l, (forall c, In c l -> wf c /\ sharable c) ->
       exists l', mapR (replace_exprs_skip ros (shared_of body)) l = Ok l').
    { induction l as [|c l IH]; intros HC; [exists []; auto|].
      destruct IH as (l' & El); [intros; apply HC; right; auto|].
      destruct (HC c (or_introl eq_refl)) as [Wc Sc].
      destruct (wf_atom_node Wc) as (k & t & args & ->).
      cbn [mapR replace_exprs_skip].
      assert (HF : Forall (fun a => wf a -> exists b, replace_exprs ros (shared_of body) a = Ok b /\
                   wf b /\ type_of b = type_of a) args).
      { rewrite Forall_forall in *. intros a Ha Wa. apply replace_exprs_wf; auto.
        eapply sharable_sub; [|exact Sc]. eapply sub_arg; eauto. constructor. }
      destruct (@map_args_wf (replace_exprs ros (shared_of body)) k t args Wc (fun a => eq_refl) HF)
        as (args' & M & A & R & W').
      rewrite M. cbn [bindR]. rewrite rebuild_replace_eq by (eapply Sc; constructor).
      rewrite R. cbn [bindR]. unfold shared_of in El |- *. rewrite El. cbn [bindR]. eauto. }
    apply X. intros c Hc. apply filter_In in Hc as [Hc _].
    apply in_map_iff in Hc as (p & <- & H). apply find_common_sub in H as [[]|[H1 H2]].
    split; [|eapply sharable_sub; eauto].
    destruct (wf_sub _ _ H1 (or_introl W)) as [|[x Ex]]; auto. rewrite Ex in H2. discriminate. }
  destruct X as (l' & ->). cbn [bindR]. eauto.
Qed.

Theorem share_choices_equal ros body body' defs :
  wf body -> sharable body -> no_ref_names ros body ->
  share_choices ros body = Ok (body', defs) ->
  exists e, expands ros defs body' e /\ expr_eqb e body = true.
Proof.
  intros W S N E. unfold share_choices in E. fold (shared_of body) in E.
  destruct (replace_exprs ros (shared_of body) body) as [b'|] eqn:R; cbn [bindR] in E; [|discriminate].
  destruct (mapR (replace_exprs_skip ros (shared_of body)) (shared_of body)) as [ds|] eqn:M;
    cbn [bindR] in E; [|discriminate].
  injection E as <- <-.
  eapply (replace_expands ros (shared_of body) ds (fun a b => expr_eqb a b = true));
    eauto using expr_eqb_refl.
  - intros a b c. apply expr_eqb_trans.
  - intros k t l l' F. cbn [expr_eqb]. now rewrite kind_eqb_refl, Forall2_eqb.
  - intros c Hc. eapply shared_of_ok; eauto.
  - intros s c i _ F1 F2. apply find_index_some in F1 as (c' & F3 & F4).
    rewrite F2 in F3. injection F3 as ->. now rewrite expr_eqb_sym.
  - now left.
Qed.

(** equal choices in the grammar are identical (not just equal up to types) *)
Definition no_coincidence (body : expr) : Prop :=
  forall a b, subexpr a body -> subexpr b body -> is_choose a = true ->
    expr_eqb a b = true -> a = b.

Theorem share_choices_exact ros body body' defs :
  wf body -> sharable body -> no_ref_names ros body -> no_coincidence body ->
  share_choices ros body = Ok (body', defs) ->
  expands ros defs body' body.
Proof.
  intros W S N C E. unfold share_choices in E. fold (shared_of body) in E.
  destruct (replace_exprs ros (shared_of body) body) as [b'|] eqn:R; cbn [bindR] in E; [|discriminate].
  destruct (mapR (replace_exprs_skip ros (shared_of body)) (shared_of body)) as [ds|] eqn:M;
    cbn [bindR] in E; [|discriminate].
  injection E as <- <-.
  destruct (replace_expands ros (shared_of body) ds (@eq expr)) with (e := body) (e' := b') (n := size body)
    as (e'' & X & ->); auto.
  - intros; congruence.
  - intros k t l l' F. f_equal. induction F; congruence.
  - intros c Hc. eapply shared_of_ok; eauto.
  - intros s c i Hs F1 F2. apply find_index_some in F1 as (c' & F3 & F4).
    rewrite F2 in F3. injection F3 as ->.
    assert (IC : In c' (shared_of body)) by (eapply nth_error_In; eauto).
    destruct (shared_of_ok ros body W S N c' IC) as [(_ & _ & _ & K) SC].
    apply C; auto; [|now rewrite expr_eqb_sym].
    destruct Hs as [Hs|(c0 & I0 & Hs)]; auto.
    eapply subexpr_trans; [exact Hs|]. eapply shared_of_ok; eauto.
  - now left.
Qed.
Lemma string_of_nat_one i j : string_of_nat i = string_of_nat j -> i = j.
Proof.
  unfold string_of_nat. intros H. apply (f_equal DecimalString.NilEmpty.uint_of_string) in H.
  rewrite !DecimalString.NilEmpty.usu in H. injection H as H. now apply DecimalNat.Unsigned.to_uint_inj.
Qed.
Lemma app_tail_s a b : (a ++ ")" = b ++ ")")%string -> a = b.
Proof.
  revert b. induction a as [|c a IH]; intros [|d b]; cbn; intros E; auto.
  - injection E as _ E. destruct b; discriminate E.
  - injection E as _ E. destruct a; discriminate E.
  - injection E as -> E. now rewrite (IH b E).
Qed.
Lemma choice_ref_one ros i j : choice_ref ros i = choice_ref ros j -> i = j.
Proof.
  unfold choice_ref. destruct ros; cbn; intros E; injection E as E; apply string_of_nat_one; auto.
  now apply app_tail_s.
Qed.
(** a text has one expansion *)
Lemma expands_one ros defs : forall e a, expands ros defs e a -> forall b, expands ros defs e b -> a = b.
Proof.
  fix IH 3. intros e a X. destruct X as [p|i t d a N X|k t args args' NR F]; intros b Y.
  - inversion Y. reflexivity.
  - inversion Y as [|j t' d' b' N' Y'|k t' l l' NR' F']; subst.
    + match goal with H : choice_ref _ _ = choice_ref _ _ |- _ => apply choice_ref_one in H; subst j end. rewrite N in N'. injection N' as <-. exact (IH _ _ X _ Y').
    + exfalso. eapply NR'. reflexivity.
  - inversion Y as [|j t' d' b' N' Y'|k' t' l l' NR' F']; subst.
    + exfalso. eapply NR. reflexivity.
    + f_equal. clear Y NR NR'. revert l' F'. induction F as [|x x' l m X F IHF]; intros l' F'; inversion F' as [|? y ? m' Y G]; subst; auto.
      f_equal; [exact (IH _ _ X _ Y) | auto].
Qed.
