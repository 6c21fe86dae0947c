(** Soundness of [optimize_useless_equality], continued. *)

From Coq Require Import String List ZArith Bool Lia DecimalString DecimalNat.
From Verif Require Import Ast Semantics Dict IrModel IrProofs IrProofs2 IrProofs3 IrProofs4 IrProofs5 IrProofs6 OptProofs.
Import ListNotations.
Local Open Scope string_scope.
Local Open Scope list_scope.

(** shape of expressions during the transformation: like [plain], any names *)
Inductive shaped : expr -> Prop :=
| sh_var x t : shaped (mkVar x t)
| sh_lit a t : shaped (mkLit a t)
| sh_call f t l : Forall shaped l -> shaped (Node KCall t (Atom (PStr f) :: l))
| sh_op k t l : In k op_kinds -> Forall shaped l -> shaped (Node k t l).

Lemma plain_shaped e : plain e -> shaped e.
Proof.
  induction e using expr_ind'; intros P; inversion P; subst; try constructor; auto.
  - inversion H; subst. clear -H4 H1. induction H1; constructor; inversion H4; subst; auto.
  - clear -H H4. induction H4; constructor; inversion H; subst; auto.
Qed.

Lemma shaped_kinds k t l : shaped (Node k t l) ->
  (k = KVar /\ exists x, l = [Atom (PStr x)]) \/
  (k = KLit /\ exists a, l = [Atom a]) \/
  (k = KCall /\ exists f l', l = Atom (PStr f) :: l' /\ Forall shaped l') \/
  (In k op_kinds /\ Forall shaped l).
Proof.
  intros H; inversion H; subst.
  - left. eauto. - right; left; eauto. - right; right; left; eauto 6. - right; right; right; auto.
Qed.

Lemma and_rebuild_types t l e : rebuild KAnd t l = Ok e -> e = Node KAnd TBool l /\ check_types TBool l = Ok tt.
Proof.
  cbn [rebuild]. unfold mkBoolN. destruct l; [discriminate|].
  destruct (check_types TBool (e0 :: l)) as [[]|] eqn:C; cbn [bindR]; [|discriminate].
  intros E; injection E as <-. auto.
Qed.

Lemma simplify_top_other k t l : k <> KAnd -> simplify_top (Node k t l) = Ok (Node k t l).
Proof. destruct k; simpl; congruence. Qed.

(** what [simplify] does: values are kept, falsification is kept *)
Lemma simplify_shaped I r e : shaped e -> forall e', simplify e = Ok e' ->
  (forall v, eval I r e = Some v -> eval I r e' = Some v) /\ (fails I r e -> fails I r e').
Proof.
  induction e using expr_ind'; intros P e' S; [inversion P|].
  cbn [simplify] in S. destruct (mapR simplify args) as [args'|] eqn:M; cbn [bindR] in S; [|discriminate].
  destruct (rebuild k t args') as [e2|] eqn:R; cbn [bindR] in S; [|discriminate].
  destruct (shaped_kinds _ _ _ P) as [(-> & x & ->)|[(-> & a & ->)|[(-> & f & l' & -> & PL)|(K & PL)]]].
  - simpl in M. injection M as <-. simpl in R. injection R as <-. simpl in S. injection S as <-. auto.
  - simpl in M. injection M as <-. simpl in R. injection R as <-. simpl in S. injection S as <-. auto.
  - cbn [mapR simplify bindR] in M. destruct (mapR simplify l') as [l2|] eqn:M2; cbn [bindR] in M; [|discriminate].
    injection M as <-. cbn [rebuild mkCall] in R. injection R as <-. cbn in S. injection S as <-.
    assert (AR : args_ref I r r l' l2).
    { apply mapR_ok_inv in M2. inversion H; subst. clear -M2 PL H3.
      induction M2; constructor; inversion PL; subst; inversion H3; subst; auto. apply (proj1 (H5 H2 _ H)).
      apply IHM2; auto. }
    assert (EV : forall v, eval I r (Node KCall t (Atom (PStr f) :: l')) = Some v ->
                 eval I r (Node KCall t (Atom (PStr f) :: l2)) = Some v).
    { intros v. eapply call_cong. exact AR. }
    split; auto. intros F. inversion F; subst. apply f_eval. auto.
  - assert (KK : In k (KVar :: KLit :: KCall :: op_kinds)) by (right; right; right; exact K).
    destruct (rebuild_shape _ _ _ _ KK R) as (t' & ->).
    apply mapR_ok_inv in M.
    assert (IH2 : Forall2 (fun a b => (forall v, eval I r a = Some v -> eval I r b = Some v) /\ (fails I r a -> fails I r b)) args args').
    { clear -M PL H. induction M; constructor; inversion PL; subst; inversion H; subst; auto. }
    assert (AR : args_ref I r r args args').
    { clear -IH2. induction IH2; constructor; auto. apply H. }
    assert (EV : forall v, eval I r (Node k t args) = Some v -> eval I r (Node k t' args') = Some v).
    { intros v. eapply op_cong; eauto. }
    assert (IN2 : forall a, In a args -> fails I r a -> exists b, In b args' /\ fails I r b).
    { clear -IH2. induction IH2; intros a IN F; [destruct IN|].
      destruct IN as [<-|IN]; [exists y; split; [left; auto | apply H; auto]|].
      destruct (IHIH2 _ IN F) as (b & ? & ?). exists b; split; [right; auto | auto]. }
    destruct (kind_eqb k KAnd) eqn:KA.
    + apply kind_eqb_eq in KA. subst. destruct (and_rebuild_types _ _ _ R) as [E C].
      injection E as ->. split.
      * intros v E. eapply simplify_and_eval; eauto.
      * intros F. inversion F as [? ? a IN Fa| | |? E]; subst.
        -- destruct (IN2 _ IN Fa) as (b & INb & Fb). eapply simplify_and_fails; eauto.
        -- apply f_eval. eapply simplify_and_eval; eauto.
    + assert (NA : k <> KAnd) by (intros ->; discriminate).
      rewrite simplify_top_other in S by auto. injection S as <-. split; auto.
      intros F. inversion F as [? ? a IN Fa|? ? NE FA|? a b Ea Fb|? E]; subst.
      * congruence.
      * apply f_or; [intros ->; inversion M; subst; congruence|]. clear -FA IH2.
        induction IH2; constructor; inversion FA; subst; auto. apply H; auto.
      * inversion IH2 as [|? a' ? ? Ha F2]; subst. inversion F2 as [|? b' ? ? Hb F3]; subst. inversion F3; subst.
        apply f_imp; [apply Ha; auto | apply Hb; auto].
      * apply f_eval; auto.
Qed.

Lemma simplify_keeps_shape e : shaped e -> forall e', simplify e = Ok e' -> shaped e'.
Proof.
  induction e using expr_ind'; intros P e' S; [inversion P|].
  cbn [simplify] in S. destruct (mapR simplify args) as [args'|] eqn:M; cbn [bindR] in S; [|discriminate].
  destruct (rebuild k t args') as [e2|] eqn:R; cbn [bindR] in S; [|discriminate].
  destruct (shaped_kinds _ _ _ P) as [(-> & x & ->)|[(-> & a & ->)|[(-> & f & l' & -> & PL)|(K & PL)]]].
  - simpl in M. injection M as <-. simpl in R. injection R as <-. simpl in S. injection S as <-. constructor.
  - simpl in M. injection M as <-. simpl in R. injection R as <-. simpl in S. injection S as <-. constructor.
  - cbn [mapR simplify bindR] in M. destruct (mapR simplify l') as [l2|] eqn:M2; cbn [bindR] in M; [|discriminate].
    injection M as <-. cbn [rebuild mkCall] in R. injection R as <-. cbn in S. injection S as <-.
    constructor. apply mapR_ok_inv in M2. inversion H; subst. clear -M2 PL H3.
    induction M2; constructor; inversion PL; subst; inversion H3; subst; auto.
  - assert (KK : In k (KVar :: KLit :: KCall :: op_kinds)) by (right; right; right; exact K).
    destruct (rebuild_shape _ _ _ _ KK R) as (t' & ->).
    apply mapR_ok_inv in M.
    assert (SA : Forall shaped args').
    { clear -M PL H. induction M; constructor; inversion PL; subst; inversion H; subst; auto. }
    destruct (kind_eqb k KAnd) eqn:KA.
    + apply kind_eqb_eq in KA. subst. cbn [simplify_top] in S.
      destruct (and_filter args') as [l|] eqn:A; [|injection S as <-; constructor].
      assert (SL : Forall shaped l).
      { apply and_filter_incl in A. rewrite Forall_forall in *. auto. }
      destruct l as [|b [|c l]].
      * injection S as <-. constructor.
      * injection S as <-. inversion SL; auto.
      * unfold mkBoolN in S. destruct (check_types TBool (b :: c :: l)); cbn [bindR] in S; [|discriminate].
        injection S as <-. apply sh_op; auto.
    + assert (NA : k <> KAnd) by (intros ->; discriminate).
      rewrite simplify_top_other in S by auto. injection S as <-. apply sh_op; auto.
Qed.

(* ------------------------------------------------------------------ *)
(** * rewrite under facts that hold *)

Definition facts (I : interp) (r : env) (m : dict expr) : Prop :=
  forall x e, dget m x = Some e -> plain e /\ imp_free e /\ (forall v, r x = Some v -> eval I r e = Some v).

Lemma rewrite_plain I r m e : facts I r m -> plain e -> forall e', rewrite m e = Ok e' ->
  plain e' /\ (imp_free e -> imp_free e') /\ (positive e -> positive e') /\
  (forall v, eval I r e = Some v -> eval I r e' = Some v) /\ (fails I r e -> fails I r e').
Proof.
  intros FM. induction e using expr_ind'; intros P e' R; [inversion P|].
  assert (PI : forall k t l, k <> KAnd -> k <> KOr -> k <> KImplies -> positive (Node k t l) -> imp_free (Node k t l)).
  { intros k0 t0 l0 N1 N2 N3 Po. inversion Po; subst; congruence. }
  destruct (plain_kinds _ _ _ P) as [(-> & x & -> & N)|[(-> & a & ->)|[(-> & f & l' & -> & PL)|(K & PL)]]].
  - simpl in R. destruct (dget m x) as [ex|] eqn:D; injection R as <-.
    + destruct (FM _ _ D) as (Pe & Ie & Ve). split; auto. split; auto. split; [intros; now apply po_other|].
      split; [exact Ve|]. intros F. inversion F; subst. apply f_eval. apply Ve. auto.
    + repeat split; auto.
  - simpl in R. injection R as <-. repeat split; auto.
  - cbn [rewrite is_var mapR bindR] in R.
    destruct (mapR (rewrite m) l') as [l2|] eqn:M2; cbn [bindR] in R; [|discriminate].
    cbn [rebuild mkCall] in R. injection R as <-.
    apply mapR_ok_inv in M2. inversion H as [|? ? _ HL]; subst.
    assert (IH2 : Forall2 (fun a b => plain b /\ (imp_free a -> imp_free b) /\ (forall v, eval I r a = Some v -> eval I r b = Some v)) l' l2).
    { clear -M2 PL HL. induction M2; constructor; inversion PL; subst; inversion HL; subst; auto.
      destruct (H4 H2 _ H) as (? & ? & ? & ? & ?). auto. }
    assert (EV : forall v, eval I r (Node KCall t (Atom (PStr f) :: l')) = Some v ->
                 eval I r (Node KCall t (Atom (PStr f) :: l2)) = Some v).
    { intros v. eapply call_cong. clear -IH2. induction IH2; constructor; auto. apply H. }
    assert (IF : imp_free (Node KCall t (Atom (PStr f) :: l')) -> imp_free (Node KCall t (Atom (PStr f) :: l2))).
    { intros F. inversion F as [|? ? ? NK FL]; subst. inversion FL as [|? ? _ FL']; subst.
      constructor; [discriminate|]. constructor; [constructor|].
      clear -IH2 FL'. induction IH2; constructor; inversion FL'; subst; auto. apply H; auto. }
    split; [|split; [|split; [|split]]]; auto.
    + constructor. clear -IH2. induction IH2; constructor; auto. apply H.
    + intros Po. apply po_other, IF, PI; auto; discriminate.
    + intros F. inversion F; subst. apply f_eval. auto.
  - cbn [rewrite] in R. rewrite op_not_var in R by auto.
    destruct (mapR (rewrite m) args) as [l2|] eqn:M2; cbn [bindR] in R; [|discriminate].
    assert (KK : In k (KVar :: KLit :: KCall :: op_kinds)) by (right; right; right; exact K).
    destruct (rebuild_shape _ _ _ _ KK R) as (t' & ->).
    apply mapR_ok_inv in M2.
    assert (IH2 : Forall2 (fun a b => plain b /\ (imp_free a -> imp_free b) /\ (positive a -> positive b) /\
       (forall v, eval I r a = Some v -> eval I r b = Some v) /\ (fails I r a -> fails I r b)) args l2).
    { clear -M2 PL H. induction M2; constructor; inversion PL; subst; inversion H; subst; auto. }
    assert (IFL : Forall imp_free args -> Forall imp_free l2).
    { clear -IH2. intros FL. induction IH2; constructor; inversion FL; subst; auto. apply H; auto. }
    assert (POL : Forall positive args -> Forall positive l2).
    { clear -IH2. intros FL. induction IH2; constructor; inversion FL; subst; auto. apply H; auto. }
    assert (IF : imp_free (Node k t args) -> imp_free (Node k t' l2)).
    { intros F. inversion F; subst. constructor; auto. }
    assert (EV : forall v, eval I r (Node k t args) = Some v -> eval I r (Node k t' l2) = Some v).
    { intros v. eapply op_cong; auto. clear -IH2. induction IH2; constructor; auto. apply H. }
    split; [|split; [|split; [|split]]]; auto.
    + apply pl_op; auto. clear -IH2. induction IH2; constructor; auto. apply H.
    + intros Po. inversion Po as [? ? PoL|? ? PoL|? a b Ia Pb|]; subst.
      * apply po_and; auto. * apply po_or; auto.
      * inversion IH2 as [|? a' ? ? Ha F2]; subst. inversion F2 as [|? b' ? ? Hb F3]; subst. inversion F3; subst.
        apply po_imp; [apply Ha; auto | apply Hb; auto].
      * apply po_other; auto.
    + intros F. inversion F as [? ? a IN Fa|? ? NE FA|? a b Ea Fb|? E]; subst.
      * assert (X : exists b, In b l2 /\ fails I r b).
        { clear -IH2 IN Fa. induction IH2; [destruct IN|].
          destruct IN as [<-|IN]; [exists y; split; [left; auto | apply H; auto]|].
          destruct (IHIH2 IN) as (b & ? & ?). exists b; split; [right; auto | auto]. }
        destruct X as (b & INb & Fb). eapply f_and; eauto.
      * apply f_or; [intros ->; inversion M2; subst; congruence|]. clear -FA IH2.
        induction IH2; constructor; inversion FA; subst; auto. apply H; auto.
      * inversion IH2 as [|? a' ? ? Ha F2]; subst. inversion F2 as [|? b' ? ? Hb F3]; subst. inversion F3; subst.
        apply f_imp; [apply Ha; auto | apply Hb; auto].
      * apply f_eval; auto.
Qed.

(* ------------------------------------------------------------------ *)
(** * collected knowledge holds when the hypothesis holds *)

Lemma val_eqb_eq a : forall b, val_eqb a b = true -> a = b.
Proof.
  assert (G : forall n a b, (fix sz v := match v with VInt _ | VBool _ | VFn _ => 1 | VList l | VTuple l =>
      S ((fix go l := match l with [] => 0 | x :: r => sz x + go r end) l) end) a <= n -> val_eqb a b = true -> a = b);
   [|intros b; eapply G; apply le_n].
  clear a. set (sz := fix sz v := match v with VInt _ | VBool _ | VFn _ => 1 | VList l | VTuple l =>
      S ((fix go l := match l with [] => 0 | x :: r => sz x + go r end) l) end).
  induction n; intros a b L E; [destruct a; simpl in L; lia|].
  assert (LST : forall l l', ((fix go l := match l with [] => 0 | x :: r => sz x + go r end) l) <= n ->
     list_eqb val_eqb l l' = true -> l = l').
  { induction l as [|x l IHl]; intros [|x' l'] Ls El; simpl in *; try discriminate; auto.
    apply andb_true_iff in El as [E1 E2]. f_equal; [apply IHn; auto; lia | apply IHl; auto; lia]. }
  destruct a, b; simpl in E; try discriminate.
  - apply Z.eqb_eq in E. congruence.
  - apply Bool.eqb_prop in E. congruence.
  - f_equal. apply LST; auto. simpl in L. lia.
  - f_equal. apply LST; auto. simpl in L. lia.
  - apply String.eqb_eq in E. congruence.
Qed.

Lemma val_eqb_refl a : val_eqb a a = true.
Proof.
  assert (G : forall n a, (fix sz v := match v with VInt _ | VBool _ | VFn _ => 1 | VList l | VTuple l =>
      S ((fix go l := match l with [] => 0 | x :: r => sz x + go r end) l) end) a <= n -> val_eqb a a = true);
   [|eapply G; apply le_n].
  clear a. set (sz := fix sz v := match v with VInt _ | VBool _ | VFn _ => 1 | VList l | VTuple l =>
      S ((fix go l := match l with [] => 0 | x :: r => sz x + go r end) l) end).
  induction n; intros a L; [destruct a; simpl in L; lia|].
  assert (LST : forall l, ((fix go l := match l with [] => 0 | x :: r => sz x + go r end) l) <= n ->
     list_eqb val_eqb l l = true).
  { induction l as [|x l IHl]; intros Ls; simpl in *; auto.
    rewrite IHn by lia. simpl. apply IHl. lia. }
  destruct a; simpl; try (apply Z.eqb_refl); try (apply Bool.eqb_reflx); try (apply String.eqb_refl); apply LST; simpl in L; lia.
Qed.

Lemma dget_ddel V (d : dict V) k x v : dget (ddel d k) x = Some v ->
  exists v', dget d x = Some v' \/ In (x, v) d.
Proof.
  intros E. exists v. right. revert E. induction d as [|[k' v'] d IH]; simpl; [discriminate|].
  destruct (String.eqb k k').
  - intros E. right. clear IH. induction d as [|[k2 v2] d IH]; simpl in *; [discriminate|].
    destruct (String.eqb x k2) eqn:X; [apply String.eqb_eq in X; injection E as <-; subst; left; auto | right; auto].
  - simpl. destruct (String.eqb x k') eqn:X.
    + intros E. apply String.eqb_eq in X. injection E as <-. subst. left; auto.
    + intros E. right; auto.
Qed.

(** stronger, entry-wise form of [facts] *)
Definition entries (I : interp) (r : env) (m : dict expr) : Prop :=
  forall x e, In (x, e) m -> plain e /\ imp_free e /\ (forall v, r x = Some v -> eval I r e = Some v).

Lemma dget_in V (d : dict V) x v : dget d x = Some v -> In (x, v) d.
Proof.
  induction d as [|[k w] d IH]; simpl; [discriminate|].
  destruct (String.eqb x k) eqn:X; [intros E; injection E as <-; apply String.eqb_eq in X; subst; left; auto | right; auto].
Qed.

Lemma entries_facts I r m : entries I r m -> facts I r m.
Proof. intros H x e D. apply H. now apply dget_in. Qed.

Lemma In_dset V (d : dict V) k v p : In p (dset d k v) -> p = (k, v) \/ In p d \/ (fst p = k /\ snd p = v).
Proof.
  induction d as [|[k' v'] d IH]; simpl.
  - intros [<-|[]]; auto.
  - destruct (String.eqb k k') eqn:E; simpl.
    + intros [<-|IN]; auto. apply String.eqb_eq in E. subst. auto.
    + intros [<-|IN]; auto. destruct (IH IN) as [?|[?|?]]; auto.
Qed.

Lemma In_ddel V (d : dict V) k p : In p (ddel d k) -> In p d.
Proof.
  induction d as [|[k' v'] d IH]; simpl; auto. destruct (String.eqb k k'); simpl; intuition.
Qed.

Lemma know_entries I r into conf x e into' conf' :
  entries I r into -> plain e -> imp_free e -> (forall v, r x = Some v -> eval I r e = Some v) ->
  know into conf x e = Ok (into', conf') -> entries I r into'.
Proof.
  intros E P F V. unfold know.
  destruct (dmem into x || smem x conf).
  - destruct (dmem into x); [|discriminate]. intros [= <- <-] y t IN. apply In_ddel in IN. auto.
  - intros [= <- <-] y t IN. apply In_dset in IN as [IN|[IN|[E1 E2]]]; auto.
    + injection IN as -> ->. auto. + simpl in *. subst. auto.
Qed.

Lemma var_name_plain a x : plain a -> var_name a = Some x -> exists t, a = mkVar x t.
Proof.
  intros P V. inversion P; subst; simpl in V; try discriminate.
  - injection V as ->. eauto.
  - simpl in H. intuition (subst; discriminate).
Qed.

Lemma eval_eq_true I r t a b : eval I r (Node KEq t [a; b]) = Some (VBool true) ->
  exists v, eval I r a = Some v /\ eval I r b = Some v.
Proof.
  cbn [eval mapO]. destruct (eval I r a) as [va|]; [|discriminate]. destruct (eval I r b) as [vb|]; [|discriminate].
  simpl. intros E. injection E as E. apply val_eqb_eq in E. subst. eauto.
Qed.

Lemma collect_entries I r ce e : plain e -> imp_free e ->
  eval I r e = Some (VBool true) \/ (forall x, r x = None) ->
  forall into conf into' conf', entries I r into ->
  collect ce e into conf = Ok (into', conf') -> entries I r into'.
Proof.
  induction e using expr_ind'; intros P F T into conf into' conf' E C; [inversion P|].
  destruct k; try (cbn [collect] in C; injection C as <- <-; exact E).
  - (* Eq *)
    destruct args as [|a [|b [|]]]; try (cbn [collect] in C; injection C as <- <-; exact E).
    apply plain_kinds in P as [[? _]|[[? _]|[[? _]|[_ P]]]]; try discriminate.
    inversion P as [|? ? Pa P']; subst. inversion P' as [|? ? Pb _]; subst.
    inversion F as [|? ? ? _ FL]; subst. inversion FL as [|? ? Fa FL']; subst. inversion FL' as [|? ? Fb _]; subst.
    assert (KA : forall x, var_name a = Some x -> forall v, r x = Some v -> eval I r b = Some v).
    { intros x Vx w Rx. destruct T as [T|T]; [|congruence].
      destruct (eval_eq_true _ _ _ _ _ T) as (v & Ea & Eb).
      destruct (var_name_plain _ _ Pa Vx) as (ta & ->). simpl in Ea. congruence. }
    assert (KB : forall y, var_name b = Some y -> forall v, r y = Some v -> eval I r a = Some v).
    { intros x Vx w Rx. destruct T as [T|T]; [|congruence].
      destruct (eval_eq_true _ _ _ _ _ T) as (v & Ea & Eb).
      destruct (var_name_plain _ _ Pb Vx) as (ta & ->). simpl in Eb. congruence. }
    cbn [collect] in C.
    destruct (var_name a) as [x|] eqn:Va; destruct (var_name b) as [y|] eqn:Vb;
      repeat match type of C with (if ?c then _ else _) = _ => destruct c end;
      try (injection C as <- <-; exact E);
      try (eapply (know_entries I r into conf x b into' conf'); eauto; fail);
      try (eapply (know_entries I r into conf y a into' conf'); eauto; fail).
  - (* And *)
    cbn [collect] in C.
    apply plain_kinds in P as [[? _]|[[? _]|[[? _]|[_ P]]]]; try discriminate.
    inversion F as [|? ? ? _ FL]; subst. clear F.
    assert (TA : Forall (fun a => eval I r a = Some (VBool true) \/ forall x, r x = None) args).
    { destruct T as [T|T]; [|rewrite Forall_forall; auto].
      apply eval_and_inv in T as (bs & NE & M & TB).
      apply mapO_in, Forall2_map_r in M. assert (X : forall b, In b bs -> b = true).
      { injection TB as TB. symmetry in TB. rewrite forallb_forall in TB. auto. }
      clear -M X. induction M; constructor; auto.
      - left. rewrite H. f_equal. f_equal. apply X; left; auto.
      - apply IHM. intros; apply X; right; auto. }
    clear T. revert into conf into' conf' E C.
    induction args as [|a args IH]; intros into conf into' conf' E C.
    + injection C as <- <-. exact E.
    + inversion H as [|? ? Ha H']; subst. inversion P as [|? ? Pa P']; subst.
      inversion FL as [|? ? Fa FL']; subst. inversion TA as [|? ? Ta TA']; subst.
      cbn [fst snd] in C.
      destruct (collect ce a into conf) as [[i1 c1]|] eqn:CA; cbn [bindR] in C; [|discriminate].
      eapply (IH H' P' FL' TA' i1 c1 into' conf'); eauto.
Qed.

Lemma prune_entries I r rhs m : entries I r m -> entries I r (prune_rewrites rhs m).
Proof. intros E x e IN. apply filter_In in IN as [IN _]. auto. Qed.

(* ------------------------------------------------------------------ *)
(** * the transformation *)

(** the new variables so far are [useless_equality_0 .. n-1] *)
Definition good_nv (nv : list expr) : Prop :=
  nv = map (fun i => mkVar (useless_name i) TBool) (seq 0 (List.length nv)).

Lemma set_add_fresh nv : good_nv nv ->
  set_add nv (mkVar (useless_name (List.length nv)) TBool) = nv ++ [mkVar (useless_name (List.length nv)) TBool].
Proof.
  intros G. unfold set_add.
  destruct (existsb (expr_eqb (mkVar (useless_name (List.length nv)) TBool)) nv) eqn:X; auto.
  exfalso. apply existsb_exists in X as (e & IN & E). unfold good_nv in G. rewrite G in IN.
  apply in_map_iff in IN as (i & <- & Hi). apply in_seq in Hi.
  unfold mkVar in E. cbn [expr_eqb list_eqb atom_eqb] in E.
  rewrite !andb_true_r in E. apply andb_true_iff in E as [_ E]. apply String.eqb_eq in E.
  apply useless_name_inj in E. lia.
Qed.

Lemma good_nv_snoc nv : good_nv nv -> good_nv (nv ++ [mkVar (useless_name (List.length nv)) TBool]).
Proof.
  unfold good_nv. intros G. rewrite app_length. simpl. rewrite PeanoNat.Nat.add_1_r, seq_S, map_app. simpl.
  now rewrite <- G.
Qed.

(** [r'] is [r] with the new variables of range [n, n') set by [f] *)
Definition extends (r r' : env) (f : nat -> bool) (n n' : nat) : Prop :=
  agrees r r' /\ forall i, n <= i < n' -> r' (useless_name i) = Some (VBool (f i)).

Definition opt_rel (I : interp) (r r' : env) (e e' : expr) : Prop :=
  (imp_free e -> forall v, eval I r e = Some v -> eval I r' e' = Some v) /\
  (positive e -> fails I r e -> fails I r' e').

Definition opt_good (I : interp) (e : expr) (n : nat) (e' : expr) (n' : nat) : Prop :=
  n <= n' /\ shaped e' /\
  forall r, exists f, forall r', extends r r' f n n' -> opt_rel I r r' e e'.

Lemma opt_list I fuel counts :
  (forall e nv e' nv', plain e -> positive e -> good_nv nv -> optimize fuel counts e nv = Ok (e', nv') ->
     good_nv nv' /\ opt_good I e (List.length nv) e' (List.length nv')) ->
  forall l nv l' nv', Forall plain l -> Forall positive l -> good_nv nv ->
    mapRS (optimize fuel counts) l nv = Ok (l', nv') ->
    good_nv nv' /\ List.length nv <= List.length nv' /\ Forall shaped l' /\
    forall r, exists f, forall r', extends r r' f (List.length nv) (List.length nv') ->
      Forall2 (opt_rel I r r') l l'.
Proof.
  intros IH. induction l as [|a l IHl]; intros nv l' nv' P Q G M.
  - simpl in M. injection M as <- <-. split; auto. split; auto. split; auto.
    intros r. exists (fun _ => true). intros; constructor.
  - cbn [mapRS] in M. inversion P; subst. inversion Q; subst.
    destruct (optimize fuel counts a nv) as [[a' nv1]|] eqn:O; cbn [bindR fst snd] in M; [|discriminate].
    destruct (mapRS (optimize fuel counts) l nv1) as [[l1 nv2]|] eqn:M1; cbn [bindR fst snd] in M; [|discriminate].
    injection M as <- <-.
    destruct (IH a nv a' nv1) as (G1 & L1 & S1 & R1); auto.
    destruct (IHl nv1 l1 nv2) as (G2 & L2 & S2 & R2); auto.
    split; auto. split; [lia|]. split; [constructor; auto|].
    intros r. destruct (R1 r) as (f1 & F1). destruct (R2 r) as (f2 & F2).
    exists (fun i => if Nat.ltb i (List.length nv1) then f1 i else f2 i).
    intros r' [AG EX]. constructor.
    + apply F1. split; auto. intros i Hi. rewrite EX by lia.
      assert (X : Nat.ltb i (List.length nv1) = true) by (apply PeanoNat.Nat.ltb_lt; lia). now rewrite X.
    + apply F2. split; auto. intros i Hi. rewrite EX by lia.
      assert (X : Nat.ltb i (List.length nv1) = false) by (apply PeanoNat.Nat.ltb_ge; lia). now rewrite X.
Qed.

(** the node rebuilt from optimised arguments *)
Lemma opt_node I r r' k t t' l l' : In k op_kinds -> Forall2 (opt_rel I r r') l l' ->
  opt_rel I r r' (Node k t l) (Node k t' l').
Proof.
  intros K F. split.
  - intros IF v. eapply op_cong; auto. inversion IF; subst. clear -F H3.
    induction F; constructor; inversion H3; subst; auto. apply H; auto. apply IHF; auto.
  - intros Po FL. inversion FL as [? ? a IN Fa|? ? NE FA|? a b Ea Fb|? E]; subst.
    + assert (PL : Forall positive l).
      { inversion Po; subst; auto. match goal with H : imp_free _ |- _ => inversion H; subst end.
        eapply Forall_impl; [|eassumption]. intros; now apply po_other. }
      assert (X : exists b, In b l' /\ fails I r' b).
      { clear -F IN Fa PL. induction F; [destruct IN|]. inversion PL; subst.
        destruct IN as [<-|IN]; [exists y; split; [left; auto | apply H; auto]|].
        destruct (IHF IN H3) as (b & ? & ?). exists b; split; [right; auto | auto]. }
      destruct X as (b & INb & Fb). eapply f_and; eauto.
    + assert (PL : Forall positive l).
      { inversion Po; subst; auto. match goal with H : imp_free _ |- _ => inversion H; subst end.
        eapply Forall_impl; [|eassumption]. intros; now apply po_other. }
      apply f_or; [intros ->; inversion F; subst; congruence|]. clear -F FA PL.
      induction F; constructor; inversion FA; subst; inversion PL; subst; auto. apply H; auto.
    + inversion F as [|? a' ? ? Ha F2]; subst. inversion F2 as [|? b' ? ? Hb F3]; subst. inversion F3; subst.
      inversion Po as [| |? ? ? Ia Pb|? X]; subst; [|inversion X; congruence].
      apply f_imp; [apply Ha; auto | apply Hb; auto].
    + destruct (kind_eqb k KImplies) eqn:KI.
      * apply kind_eqb_eq in KI. subst.
        inversion Po as [| |? a b Ia Pb|? X]; subst; [|inversion X; congruence].
        inversion F as [|? a' ? ? Ha F2]; subst. inversion F2 as [|? b' ? ? Hb F3]; subst. inversion F3; subst.
        cbn [eval mapO] in E. destruct (eval I r a) as [va|] eqn:Ea; [|discriminate].
        destruct (eval I r b) as [vb|] eqn:Eb; [|discriminate].
        simpl in E. destruct va as [|[]| | |]; try discriminate; destruct vb as [|[]| | |]; try discriminate.
        apply f_imp; [apply Ha; auto | apply Hb; auto; now apply f_eval].
      * destruct (kind_eqb k KAnd) eqn:KA; [|destruct (kind_eqb k KOr) eqn:KO].
        -- apply kind_eqb_eq in KA. subst.
           assert (PL : Forall positive l).
           { inversion Po; subst; auto. match goal with H : imp_free _ |- _ => inversion H; subst end.
             eapply Forall_impl; [|eassumption]. intros; now apply po_other. }
           apply eval_and_inv in E as (bs & NE & M & FB). apply mapO_in, Forall2_map_r in M.
           assert (X : exists b, In b l' /\ fails I r' b).
           { assert (Y : In false bs).
             { injection FB as FB. clear -FB. induction bs as [|[] bs IH]; simpl in *; auto. discriminate. }
             clear -F M Y PL. revert bs M Y. induction F; intros bs M Y; inversion M; subst; [destruct Y|].
             inversion PL; subst. destruct Y as [->|Y].
             - exists y. split; [left; auto | apply H; auto; now apply f_eval].
             - destruct (IHF H5 _ H4 Y) as (b & ? & ?). exists b. split; [right; auto | auto]. }
           destruct X as (b & INb & Fb). eapply f_and; eauto.
        -- apply kind_eqb_eq in KO. subst.
           assert (PL : Forall positive l).
           { inversion Po; subst; auto. match goal with H : imp_free _ |- _ => inversion H; subst end.
             eapply Forall_impl; [|eassumption]. intros; now apply po_other. }
           assert (E' : match mapO (eval I r) l with Some vs => op_val I KOr vs | None => None end = Some (VBool false)) by exact E.
           destruct (mapO (eval I r) l) as [vs|] eqn:M; [|discriminate]. apply mapO_in in M.
           simpl in E'. destruct (mapO as_bool vs) as [[|b bs]|] eqn:B; try discriminate. injection E' as EB.
           apply mapO_as_bool in B. subst. apply Forall2_map_r in M.
           apply f_or; [intros ->; inversion F; subst; inversion M|].
           assert (X : forall x, In x (b :: bs) -> x = false).
           { intros x IN. destruct x; auto. change (existsb (fun x => x) (b :: bs) = false) in EB.
             rewrite <- EB. symmetry. apply existsb_exists. exists true. auto. }
           clear -F M X PL. revert M X. generalize (b :: bs). intros bs'. revert bs'.
           induction F; intros bs' M X; constructor; inversion M; subst; inversion PL; subst.
           ++ apply H; auto. apply f_eval. rewrite H2. f_equal. f_equal. apply X; left; auto.
           ++ eapply IHF; eauto. intros; apply X; right; auto.
        -- (* other operators: implication free *)
           inversion Po; subst; try discriminate. apply f_eval.
           eapply op_cong; [exact K | | exact E].
           match goal with H : imp_free _ |- _ => inversion H as [|? ? ? ? FL']; subst end.
           clear -F FL'. induction F; constructor; inversion FL'; subst; auto. apply H; auto. apply IHF; auto.
Qed.

Lemma positive_args k t l : positive (Node k t l) -> Forall positive l.
Proof.
  intros P. inversion P as [| |? a b Ia Pb|? H]; subst; auto.
  - constructor; [now apply po_other | auto].
  - inversion H; subst. eapply Forall_impl; [|eassumption]. intros; now apply po_other.
Qed.

Lemma opt_vacuous I e n e' n' : n <= n' -> shaped e' -> (forall r, exists f, forall r', extends r r' f n n' -> opt_rel I r r' e e') ->
  opt_good I e n e' n'.
Proof. intros; split; [|split]; auto. Qed.

Lemma mapRS_nil counts fuel a nv : mapRS (optimize (S fuel) counts) [Atom a] nv = Ok ([Atom a], nv).
Proof. reflexivity. Qed.

Theorem optimize_sound I fuel counts : forall e nv e' nv', plain e -> positive e -> good_nv nv ->
  optimize fuel counts e nv = Ok (e', nv') ->
  good_nv nv' /\ opt_good I e (List.length nv) e' (List.length nv').
Proof.
  induction fuel as [|fuel IH]; intros e nv e' nv' P Q G O; [discriminate|].
  destruct e as [|k t args]; [inversion P|].
  cbn [optimize] in O.
  (* the part common to all classes: optimise the arguments, rebuild, simplify *)
  assert (REST : forall k1 t1 args1, plain (Node k1 t1 args1) -> positive (Node k1 t1 args1) ->
     (rs <- mapRS (optimize fuel counts) args1 nv ;; e2 <- rebuild k1 t1 (fst rs) ;;
      e3 <- simplify e2 ;; Ok (e3, snd rs)) = Ok (e', nv') ->
     good_nv nv' /\ opt_good I (Node k1 t1 args1) (List.length nv) e' (List.length nv')).
  { clear O P Q. intros k1 t1 args1 P Q E.
    pose proof (positive_args _ _ _ Q) as QL.
    destruct (mapRS (optimize fuel counts) args1 nv) as [[l2 nv2]|] eqn:M; cbn [bindR fst snd] in E; [|discriminate].
    destruct (rebuild k1 t1 l2) as [e2|] eqn:R; cbn [bindR] in E; [|discriminate].
    destruct (simplify e2) as [e3|] eqn:S; cbn [bindR] in E; [|discriminate].
    injection E as -> ->.
    assert (MAIN : good_nv nv' /\ opt_good I (Node k1 t1 args1) (List.length nv) e2 (List.length nv')).
    { destruct (plain_kinds _ _ _ P) as [(-> & x & -> & N)|[(-> & a & ->)|[(-> & f & l' & -> & PL)|(K & PL)]]].
      - destruct fuel; [discriminate|]. rewrite mapRS_nil in M. injection M as <- <-. simpl in R. injection R as <-.
        split; auto. apply opt_vacuous; auto; [constructor|].
        intros r. exists (fun _ => true). intros r' [AG _].
        assert (EV : forall v, eval I r (mkVar x t1) = Some v -> eval I r' (mkVar x t1) = Some v).
        { intros v. simpl. now rewrite AG. }
        split; auto. intros _ F. inversion F; subst. apply f_eval; auto.
      - destruct fuel; [discriminate|]. rewrite mapRS_nil in M. injection M as <- <-. simpl in R. injection R as <-.
        split; auto. apply opt_vacuous; auto; [constructor|].
        intros r. exists (fun _ => true). intros r' _.
        split; auto. intros _ F. inversion F; subst. apply f_eval; auto.
      - destruct fuel; [discriminate|].
        cbn [mapRS] in M. change (optimize (Datatypes.S fuel) counts (Atom (PStr f)) nv) with (Ok (Atom (PStr f), nv)) in M.
        cbn [bindR fst snd] in M.
        destruct (mapRS (optimize (Datatypes.S fuel) counts) l' nv) as [[l3 nv3]|] eqn:M3; cbn [bindR fst snd] in M; [|discriminate].
        injection M as <- <-. cbn [rebuild mkCall] in R. injection R as <-.
        destruct (opt_list I (Datatypes.S fuel) counts IH _ _ _ _ PL (Forall_inv_tail QL) G M3) as (G3 & L3 & S3 & R3).
        split; auto. apply opt_vacuous; auto; [constructor; auto|].
        intros r. destruct (R3 r) as (g & Hg). exists g. intros r' EX. specialize (Hg r' EX).
        assert (EV : imp_free (Node KCall t1 (Atom (PStr f) :: l')) -> forall v, eval I r (Node KCall t1 (Atom (PStr f) :: l')) = Some v ->
                 eval I r' (Node KCall t1 (Atom (PStr f) :: l3)) = Some v).
        { intros IF v. eapply call_cong. inversion IF as [|? ? ? _ FL]; subst. inversion FL as [|? ? _ FL']; subst.
          clear -Hg FL'. induction Hg; constructor; inversion FL'; subst; auto. apply H; auto. apply IHHg; auto. }
        split; auto. intros Po F. inversion F; subst. apply f_eval. apply EV; auto.
        inversion Po; subst; auto.
      - assert (KK : In k1 (KVar :: KLit :: KCall :: op_kinds)) by (right; right; right; exact K).
        destruct (rebuild_shape _ _ _ _ KK R) as (t' & ->).
        destruct (opt_list I fuel counts IH _ _ _ _ PL QL G M) as (G3 & L3 & S3 & R3).
        split; auto. apply opt_vacuous; auto; [apply sh_op; auto|].
        intros r. destruct (R3 r) as (g & Hg). exists g. intros r' EX.
        apply opt_node; auto. }
    destruct MAIN as (G' & L & SH & REL). split; auto. split; auto. split; [eapply simplify_keeps_shape; eauto|].
    intros r. destruct (REL r) as (f & Hf). exists f. intros r' EX. destruct (Hf r' EX) as (A & B).
    destruct (simplify_shaped I r' _ SH _ S) as (SV & SF). split; auto. }
  destruct k; try (cbn [bindR] in O; apply REST; auto; fail).
  - (* Eq *)
    destruct (opt_eq counts nv args) as [[[e1 nv1]|]|] eqn:OE; cbn [bindR] in O; [|apply REST; auto|discriminate].
    injection O as -> ->. clear REST.
    destruct args as [|a [|b [|]]]; try discriminate.
    assert (REP : forall e1 nv1, (mkVar (useless_name (List.length nv)) TBool, set_add nv (mkVar (useless_name (List.length nv)) TBool)) = (e1, nv1) ->
       good_nv nv1 /\ opt_good I (Node KEq t [a; b]) (List.length nv) e1 (List.length nv1)).
    { clear OE e' nv'. intros e' nv' E. injection E as <- <-. rewrite set_add_fresh by auto. split; [apply good_nv_snoc; auto|].
      rewrite app_length. simpl. apply opt_vacuous; [lia | constructor |].
      intros r. exists (fun _ => match eval I r (Node KEq t [a; b]) with Some (VBool true) => true | _ => false end).
      intros r' [_ EX]. specialize (EX (List.length nv)).
      assert (EV : forall v, eval I r (Node KEq t [a; b]) = Some v ->
         eval I r' (mkVar (useless_name (List.length nv)) TBool) = Some v).
      { intros v E. simpl. rewrite EX by lia. rewrite E.
        cbn [eval mapO] in E. destruct (eval I r a) as [va|]; [|discriminate]. destruct (eval I r b) as [vb|]; [|discriminate].
        simpl in E. injection E as <-. destruct (val_eqb va vb); auto. }
      split; auto. intros _ F. inversion F; subst. apply f_eval; auto. }
    cbn [opt_eq] in OE.
    destruct (match var_name a with Some x => count_is_one counts x | None => Ok false end) as [[]|]; cbn [bindR] in OE; [injection OE as <- <-; apply REP; auto | | discriminate].
    destruct (match var_name b with Some x => count_is_one counts x | None => Ok false end) as [[]|]; cbn [bindR] in OE; [injection OE as <- <-; apply REP; auto | | discriminate].
    destruct (var_name a) as [x|] eqn:Va; [|discriminate]. destruct (var_name b) as [y|] eqn:Vb; [|discriminate].
    destruct (String.eqb x y) eqn:XY; [|discriminate]. injection OE as <- <-. apply String.eqb_eq in XY. subst y.
    split; auto. apply opt_vacuous; auto; [constructor|].
    apply plain_kinds in P as [[? _]|[[? _]|[[? _]|[_ P]]]]; try discriminate.
    inversion P as [|? ? Pa P']; subst. inversion P' as [|? ? Pb _]; subst.
    destruct (var_name_plain _ _ Pa Va) as (ta & ->). destruct (var_name_plain _ _ Pb Vb) as (tb & ->).
    intros r. exists (fun _ => true). intros r' _.
    assert (EV : forall v, eval I r (Node KEq t [mkVar x ta; mkVar x tb]) = Some v -> v = VBool true).
    { intros v. simpl. destruct (r x) as [w|]; [|discriminate]. simpl. rewrite val_eqb_refl. congruence. }
    split.
    + intros _ v E. rewrite (EV _ E). reflexivity.
    + intros _ F. inversion F; subst. exfalso. match goal with H : eval _ _ _ = _ |- _ => apply EV in H end. discriminate.
  - (* Implies *)
    cbn [bindR] in O.
    destruct (opt_implies counts (Node KImplies t args) args) as [e1|] eqn:OI; cbn [bindR] in O; [|discriminate].
    destruct args as [|a [|b [|]]]; try discriminate.
    cbn [opt_implies] in OI.
    destruct (elsewhere counts (count_uses (Node KImplies t [a; b]) []) (dkeys counts)) as [ce|]; cbn [bindR] in OI; [|discriminate].
    destruct (collect ce a [] []) as [[into conf]|] eqn:CO; cbn [bindR fst] in OI; [|discriminate].
    assert (NE : forall r, entries I r []) by (intros ? ? ? []).
    set (m := prune_rewrites (count_uses b []) into) in *.
    assert (Ia : imp_free a /\ positive b).
    { inversion Q as [| |? ? ? X Y|? X]; subst; auto. inversion X; congruence. }
    destruct Ia as [Ia Qb].
    pose proof P as P0. apply plain_kinds in P as [[? _]|[[? _]|[[? _]|[_ P]]]]; try discriminate.
    inversion P as [|? ? Pa P']; subst.
    assert (F0 : facts I (fun _ => None) m).
    { apply entries_facts, prune_entries. eapply collect_entries; [exact Pa | exact Ia | right; auto | apply NE | exact CO]. }
    destruct (rewrite_plain I _ m _ F0 P0 _ OI) as (P1 & _ & Q1 & _). specialize (Q1 Q).
    destruct e1 as [|k1 t1 args1]; [discriminate|].
    destruct (REST k1 t1 args1 P1 Q1 O) as (G' & L & SH & REL).
    split; auto. apply opt_vacuous; auto.
    intros r. destruct (REL r) as (f & Hf). exists f. intros r' EX. destruct (Hf r' EX) as (_ & B).
    split; [intros IF; inversion IF; congruence|].
    intros _ F.
    assert (T : eval I r a = Some (VBool true)).
    { inversion F as [| |? ? ? T Fb|? E]; subst; auto.
      cbn [eval mapO] in E. destruct (eval I r a) as [va|]; [|discriminate].
      destruct (eval I r b) as [vb|]; [|discriminate].
      simpl in E. destruct va as [|[]| | |]; try discriminate; destruct vb as [|[]| | |]; try discriminate; auto. }
    assert (F1 : facts I r m).
    { apply entries_facts, prune_entries. eapply collect_entries; [exact Pa | exact Ia | left; auto | apply NE | exact CO]. }
    destruct (rewrite_plain I _ m _ F1 P0 _ OI) as (_ & _ & _ & _ & FF). auto.
Qed.

(* ------------------------------------------------------------------ *)
(** * termination on positive conditions *)

(** nesting depth of implications *)
Fixpoint inest (e : expr) : nat :=
  match e with
  | Atom _ => 0
  | Node k _ l => (match k with KImplies => 1 | _ => 0 end) +
      (fix go l := match l with [] => 0 | a :: r => Nat.max (inest a) (go r) end) l
  end.

Definition inests (l : list expr) : nat :=
  (fix go l := match l with [] => 0 | a :: r => Nat.max (inest a) (go r) end) l.

Lemma inests_in a l : In a l -> inest a <= inests l.
Proof.
  induction l; intros []; subst; unfold inests in *; cbn [inest]; [lia|]. specialize (IHl H). lia.
Qed.

Lemma inests_bound l n : (forall a, In a l -> inest a <= n) -> inests l <= n.
Proof.
  induction l; intros H; unfold inests in *; [lia|].
  assert (inest a <= n) by (apply H; left; auto).
  assert ((fix go l := match l with [] => 0 | a :: r => Nat.max (inest a) (go r) end) l <= n) by (apply IHl; intros; apply H; right; auto).
  lia.
Qed.

Lemma imp_free_nest e : imp_free e -> inest e = 0.
Proof.
  induction e using expr_ind'; intros F; auto. inversion F; subst.
  assert (X : inests args <= 0).
  { apply inests_bound. intros a IN. rewrite Forall_forall in *. rewrite (H a IN); auto. }
  cbn [inest]. unfold inests in X. destruct k; try congruence; lia.
Qed.

Lemma rewrite_nest m e : (forall x t, dget m x = Some t -> imp_free t) -> plain e ->
  forall e', rewrite m e = Ok e' -> inest e' <= inest e.
Proof.
  intros FM. induction e using expr_ind'; intros P e' R; [inversion P|].
  destruct (plain_kinds _ _ _ P) as [(-> & x & -> & N)|[(-> & a & ->)|[(-> & f & l' & -> & PL)|(K & PL)]]].
  - simpl in R. destruct (dget m x) as [ex|] eqn:D; injection R as <-; auto.
    rewrite imp_free_nest; eauto.
  - simpl in R. injection R as <-. auto.
  - cbn [rewrite is_var mapR bindR] in R.
    destruct (mapR (rewrite m) l') as [l2|] eqn:M2; cbn [bindR] in R; [|discriminate].
    cbn [rebuild mkCall] in R. injection R as <-.
    apply mapR_ok_inv in M2. inversion H as [|? ? _ HL]; subst.
    assert (X : inests l2 <= inests l').
    { clear -M2 PL HL. unfold inests. induction M2; auto. inversion PL; subst; inversion HL; subst.
      specialize (H4 H2 _ H). specialize (IHM2 H3 H5). lia. }
    unfold inests in X. cbn [inest]. lia.
  - cbn [rewrite] in R. rewrite op_not_var in R by auto.
    destruct (mapR (rewrite m) args) as [l2|] eqn:M2; cbn [bindR] in R; [|discriminate].
    assert (KK : In k (KVar :: KLit :: KCall :: op_kinds)) by (right; right; right; exact K).
    destruct (rebuild_shape _ _ _ _ KK R) as (t' & ->).
    apply mapR_ok_inv in M2.
    assert (X : inests l2 <= inests args).
    { clear -M2 PL H. unfold inests. induction M2; auto. inversion PL; subst; inversion H; subst.
      specialize (H5 H3 _ H0). specialize (IHM2 H6 H4). lia. }
    unfold inests in X. cbn [inest]. lia.
Qed.

Definition not_fuel {A} (r : res A) : Prop := r <> Err ExFuel.

Lemma bind_not_fuel A B (m : res A) (k : A -> res B) :
  not_fuel m -> (forall a, m = Ok a -> not_fuel (k a)) -> not_fuel (x <- m ;; k x).
Proof. intros N K. destruct m as [a|]; cbn [bindR]; [auto|]. intros E. apply N. congruence. Qed.

Lemma mapR_not_fuel A B (f : A -> res B) l : Forall (fun a => not_fuel (f a)) l -> not_fuel (mapR f l).
Proof.
  induction 1; [discriminate|]. cbn [mapR]. apply bind_not_fuel; auto. intros b _.
  apply bind_not_fuel; auto. intros; discriminate.
Qed.

Ltac nf := repeat match goal with
  | |- not_fuel (Ok _) => discriminate
  | |- not_fuel (Err _) => discriminate
  | |- not_fuel (bindR _ _) => apply bind_not_fuel; [|intros ? _]
  | |- not_fuel (if ?c then _ else _) => destruct c
  | |- not_fuel (match ?c with _ => _ end) => destruct c
  end.

Lemma type_of_not_fuel e : not_fuel (type_of e).
Proof. destruct e; simpl; discriminate. Qed.

Lemma check_types_not_fuel t l : not_fuel (check_types t l).
Proof.
  induction l; cbn [check_types]; nf; auto using type_of_not_fuel.
Qed.

Lemma fn_return_type_not_fuel t : not_fuel (fn_return_type t).
Proof. destruct t; simpl; try discriminate; destruct ts; discriminate. Qed.

Lemma rebuild_not_fuel k t l : not_fuel (rebuild k t l).
Proof.
  pose proof check_types_not_fuel as CT. pose proof type_of_not_fuel as TT.
  assert (MT : forall l, not_fuel (mapR type_of l)) by (intros; apply mapR_not_fuel, Forall_forall; auto).
  pose proof fn_return_type_not_fuel as FR.
  destruct k; cbn [rebuild]; unfold mkBoolN, mkArithN, mkArith2, mkCmp, mkEq, mkNot, mkImplies, mkIte, mkLet, mkCall,
    mkCallValue, mkTupleExpr, mkAxiom, mkChoose, mkFn; nf; auto.
Qed.

Lemma simplify_not_fuel e : not_fuel (simplify e).
Proof.
  induction e using expr_ind'; [discriminate|]. cbn [simplify]. apply bind_not_fuel; [apply mapR_not_fuel; auto|].
  intros l _. apply bind_not_fuel; [apply rebuild_not_fuel|]. intros e _.
  destruct e as [|k' t' l']; [discriminate|]. destruct k'; try discriminate.
  cbn [simplify_top]. pose proof check_types_not_fuel. unfold mkBoolN. nf; auto.
Qed.

Lemma rewrite_not_fuel m e : not_fuel (rewrite m e).
Proof.
  induction e using expr_ind'; [discriminate|]. cbn [rewrite].
  assert (X : not_fuel (args' <- mapR (rewrite m) args ;; rebuild k t args')).
  { apply bind_not_fuel; [apply mapR_not_fuel; auto | intros; apply rebuild_not_fuel]. }
  nf; auto using mapR_not_fuel, rebuild_not_fuel.
Qed.

Lemma elsewhere_not_fuel counts l : forall ce, not_fuel (elsewhere counts l ce).
Proof. induction l as [|[x n] l IH]; intros ce; cbn [elsewhere]; nf; auto. Qed.

Lemma know_not_fuel into conf x e : not_fuel (know into conf x e).
Proof. unfold know. nf. Qed.

Lemma collect_not_fuel ce e : forall into conf, not_fuel (collect ce e into conf).
Proof.
  induction e using expr_ind'; intros into conf; [discriminate|].
  destruct k; try discriminate.
  - destruct args as [|a [|b [|]]]; try discriminate. cbn [collect].
    pose proof know_not_fuel. nf; auto.
  - cbn [collect]. revert into conf. induction H as [|a l Ha HL IH]; intros into conf; [discriminate|].
    cbn [fst snd]. apply bind_not_fuel; auto. intros [i c] _. apply IH.
Qed.

Lemma opt_implies_not_fuel counts e l : not_fuel (opt_implies counts e l).
Proof.
  destruct l as [|a [|b [|]]]; try discriminate. cbn [opt_implies].
  apply bind_not_fuel; [apply elsewhere_not_fuel|]. intros ce _.
  apply bind_not_fuel; [apply collect_not_fuel|]. intros [i c] _. apply rewrite_not_fuel.
Qed.

Lemma opt_eq_not_fuel counts nv l : not_fuel (opt_eq counts nv l).
Proof. destruct l as [|a [|b [|]]]; try discriminate. cbn [opt_eq]. unfold count_is_one. nf. Qed.

(** enough fuel for every starting list of new variables *)
Definition enough (counts : dict nat) (e : expr) : Prop :=
  exists F, forall fuel, F <= fuel -> forall nv, not_fuel (optimize fuel counts e nv).

Lemma enough_list counts l : Forall (enough counts) l ->
  exists F, forall fuel, F <= fuel -> forall nv, not_fuel (mapRS (optimize fuel counts) l nv).
Proof.
  induction 1 as [|a l (Fa & Ha) _ (Fl & Hl)]; [exists 0; discriminate|].
  exists (Nat.max Fa Fl). intros fuel L nv. cbn [mapRS].
  apply bind_not_fuel; [apply Ha; lia|]. intros [b nv1] _. apply bind_not_fuel; [apply Hl; lia|].
  intros; discriminate.
Qed.

Lemma enough_node counts k t l : k <> KImplies -> Forall (enough counts) l -> enough counts (Node k t l).
Proof.
  intros K FL. destruct (enough_list counts l FL) as (F & HF). exists (S F). intros fuel L nv.
  destruct fuel as [|fuel]; [lia|]. cbn [optimize].
  apply bind_not_fuel; [destruct k; try discriminate; apply opt_eq_not_fuel|].
  intros [[e1 nv1]|] _; [discriminate|].
  assert (X : not_fuel (rs <- mapRS (optimize fuel counts) l nv ;; e2 <- rebuild k t (fst rs) ;;
      e3 <- simplify e2 ;; Ok (e3, snd rs))).
  { apply bind_not_fuel; [apply HF; lia|]. intros rs _. apply bind_not_fuel; [apply rebuild_not_fuel|].
    intros e2 _. apply bind_not_fuel; [apply simplify_not_fuel|]. intros; discriminate. }
  destruct k; try congruence; exact X.
Qed.

Theorem optimize_enough (I : interp) counts n : forall e, inest e <= n -> plain e -> positive e -> enough counts e.
Proof.
  induction n as [n IHn] using (well_founded_induction Wf_nat.lt_wf).
  induction e using expr_ind'; intros L P Q; [inversion P|].
  assert (LA : inests args <= n) by (unfold inests; cbn [inest] in L; lia).
  pose proof (positive_args _ _ _ Q) as QL.
  destruct (kind_eqb k KImplies) eqn:KI.
  - apply kind_eqb_eq in KI. subst k.
    destruct (opt_implies counts (Node KImplies t args) args) as [e1|ex] eqn:OI.
    2:{ exists 1. intros fuel Lf nv. destruct fuel; [lia|]. cbn [optimize bindR]. rewrite OI. cbn [bindR].
        pose proof (opt_implies_not_fuel counts (Node KImplies t args) args) as X. rewrite OI in X. congruence. }
    assert (X : exists t1 a b, e1 = Node KImplies t1 [a; b] /\ enough counts a /\ enough counts b).
    { pose proof OI as OI0. destruct args as [|a [|b [|]]]; try discriminate.
      cbn [opt_implies] in OI.
      destruct (elsewhere counts (count_uses (Node KImplies t [a; b]) []) (dkeys counts)) as [ce|]; cbn [bindR] in OI; [|discriminate].
      destruct (collect ce a [] []) as [[into conf]|] eqn:CO; cbn [bindR fst] in OI; [|discriminate].
      set (m := prune_rewrites (count_uses b []) into) in *.
      assert (Ia : imp_free a /\ positive b).
      { inversion Q as [| |? ? ? X Y|? X]; subst; auto. inversion X; congruence. }
      destruct Ia as [Ia Qb].
      pose proof P as P0. apply plain_kinds in P as [[? _]|[[? _]|[[? _]|[_ P]]]]; try discriminate.
      inversion P as [|? ? Pa P']; subst.
      assert (F0 : facts I (fun _ => None) m).
      { apply entries_facts, prune_entries. eapply collect_entries with (into := []) (conf := []); [exact Pa | exact Ia | right; auto | intros ? ? IN0; destruct IN0 | exact CO]. }
      destruct (rewrite_plain I _ m _ F0 P0 _ OI) as (P1 & _ & Q1 & _). specialize (Q1 Q).
      assert (NE : inest e1 <= inest (Node KImplies t [a; b])).
      { apply (rewrite_nest m _ (fun x t0 D => proj1 (proj2 (F0 x t0 D))) P0 _ OI). }
      cbn [rewrite is_var] in OI.
      destruct (mapR (rewrite m) [a; b]) as [l2|] eqn:M; cbn [bindR] in OI; [|discriminate].
      apply mapR_ok_inv in M. inversion M as [|? a' ? ? _ M1]; subst. inversion M1 as [|? b' ? ? _ M2]; subst. inversion M2; subst.
      assert (KK : In KImplies (KVar :: KLit :: KCall :: op_kinds)) by (simpl; tauto).
      destruct (rebuild_shape _ _ _ _ KK OI) as (t1 & ->).
      exists t1, a', b'. split; auto.
      pose proof (positive_args _ _ _ Q1) as QL1. inversion QL1 as [|? ? Qa' QL2]; subst. inversion QL2 as [|? ? Qb' _]; subst.
      apply plain_kinds in P1 as [[? _]|[[? _]|[[? _]|[_ P1]]]]; try discriminate.
      inversion P1 as [|? ? Pa' P1']; subst. inversion P1' as [|? ? Pb' _]; subst.
      assert (S1 : inest (Node KImplies t1 [a'; b']) = S (Nat.max (inest a') (Nat.max (inest b') 0))) by reflexivity.
      split; (eapply IHn; [|apply le_n| |]; auto; lia). }
    destruct X as (t1 & a & b & -> & Ea & Eb).
    destruct (enough_list counts [a; b]) as (F & HF); [repeat constructor; auto|].
    exists (S F). intros fuel Lf nv. destruct fuel as [|fuel]; [lia|]. cbn [optimize bindR]. rewrite OI. cbn [bindR].
    apply bind_not_fuel; [apply HF; lia|]. intros rs _. apply bind_not_fuel; [apply rebuild_not_fuel|].
    intros e2 _. apply bind_not_fuel; [apply simplify_not_fuel|]. intros; discriminate.
  - assert (KN : k <> KImplies) by (intros ->; discriminate).
    apply enough_node; auto.
    destruct (plain_kinds _ _ _ P) as [(-> & x & -> & N)|[(-> & a & ->)|[(-> & f & l' & -> & PL)|(K & PL)]]].
    + constructor; auto. exists 1. intros [|fuel] Lf nv; [lia | discriminate].
    + constructor; auto. exists 1. intros [|fuel] Lf nv; [lia | discriminate].
    + constructor; [exists 1; intros [|fuel] Lf nv; [lia | discriminate]|].
      inversion H as [|? ? _ HL]; subst. apply Forall_inv_tail in QL.
      assert (LB : forall a, In a l' -> inest a <= n).
      { intros a IN. pose proof (inests_in a (Atom (PStr f) :: l') (or_intror IN)). lia. }
      rewrite Forall_forall in *. auto.
    + assert (LB : forall a, In a args -> inest a <= n).
      { intros a IN. pose proof (inests_in a args IN). lia. }
      rewrite Forall_forall in *. auto.
Qed.

(** recovering the number of a new variable *)
Definition useless_index (x : string) : option nat :=
  match NilEmpty.uint_of_string (substring 17 (String.length x - 17) x) with
  | Some u => if String.eqb x (useless_name (Nat.of_uint u)) then Some (Nat.of_uint u) else None
  | None => None
  end.

Lemma substring_all s : substring 0 (String.length s) s = s.
Proof. induction s; simpl; congruence. Qed.

Lemma useless_index_name i : useless_index (useless_name i) = Some i.
Proof.
  unfold useless_index.
  assert (E : substring 17 (String.length (useless_name i) - 17) (useless_name i) = string_of_nat i).
  { unfold useless_name. generalize (string_of_nat i). intros s. simpl.
    rewrite PeanoNat.Nat.sub_0_r. apply substring_all. }
  rewrite E. unfold string_of_nat. rewrite NilEmpty.usu, Unsigned.of_to, String.eqb_refl. reflexivity.
Qed.

Lemma useless_index_some x i : useless_index x = Some i -> x = useless_name i.
Proof.
  unfold useless_index. destruct (NilEmpty.uint_of_string _) as [u|]; [|discriminate].
  destruct (String.eqb_spec x (useless_name (Nat.of_uint u))) as [E|]; [|discriminate].
  intros [= <-]. exact E.
Qed.

Lemma new_vars_env (r : env) (f : nat -> bool) :
  exists r' : env, (forall x, (forall i, x <> useless_name i) -> r' x = r x) /\
    (forall i, r' (useless_name i) = Some (VBool (f i))).
Proof.
  exists (fun x => match useless_index x with Some i => Some (VBool (f i)) | None => r x end). split.
  - intros x N. destruct (useless_index x) as [i|] eqn:U; auto. apply useless_index_some in U. now apply N in U.
  - intros i. now rewrite useless_index_name.
Qed.
