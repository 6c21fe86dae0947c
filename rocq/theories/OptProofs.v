(** Soundness of [optimize_useless_equality] on verification conditions in which
    implications occur only in positive positions. *)

From Coq Require Import String List ZArith Bool Lia DecimalString DecimalNat.
From Verif Require Import Ast Semantics Dict IrModel IrProofs IrProofs2 IrProofs3 IrProofs4 IrProofs5 IrProofs6.
Import ListNotations.
Local Open Scope string_scope.
Local Open Scope list_scope.

(* ------------------------------------------------------------------ *)
(** * Specification *)

(** [fails I r e]: the assignment [r] falsifies [e], whatever the value of parts
    that do not matter: one conjunct fails, all disjuncts fail, the hypothesis
    holds and the conclusion fails, or [e] evaluates to false. *)
Inductive fails (I : interp) (r : env) : expr -> Prop :=
| f_and t l a : In a l -> fails I r a -> fails I r (Node KAnd t l)
| f_or t l : l <> [] -> Forall (fails I r) l -> fails I r (Node KOr t l)
| f_imp t a b : eval I r a = Some (VBool true) -> fails I r b -> fails I r (Node KImplies t [a; b])
| f_eval e : eval I r e = Some (VBool false) -> fails I r e.

(** no assignment falsifies [e] *)
Definition holds_always (I : interp) (e : expr) : Prop := forall r, ~ fails I r e.

Definition op_kinds : list kind :=
  [KAdd; KSub; KMul; KDiv; KMod; KEq; KLt; KLe; KGt; KGe; KAnd; KOr; KNot; KImplies; KIte; KTupleExpr].

(** formulas over variables, literals, operators and calls; no variable has a
    name of the form [useless_equality_<n>] *)
Inductive plain : expr -> Prop :=
| pl_var x t : (forall i, x <> useless_name i) -> plain (mkVar x t)
| pl_lit a t : plain (mkLit a t)
| pl_call f t l : Forall plain l -> plain (Node KCall t (Atom (PStr f) :: l))
| pl_op k t l : In k op_kinds -> Forall plain l -> plain (Node k t l).

(** contains no implication *)
Inductive imp_free : expr -> Prop :=
| if_atom a : imp_free (Atom a)
| if_node k t l : k <> KImplies -> Forall imp_free l -> imp_free (Node k t l).

(** implications only below conjunctions, disjunctions and conclusions of
    implications *)
Inductive positive : expr -> Prop :=
| po_and t l : Forall positive l -> positive (Node KAnd t l)
| po_or t l : Forall positive l -> positive (Node KOr t l)
| po_imp t a b : imp_free a -> positive b -> positive (Node KImplies t [a; b])
| po_other e : imp_free e -> positive e.

(* ------------------------------------------------------------------ *)
(** * Facts about the specification *)

Lemma mapO_in A B (f : A -> option B) l vs : mapO f l = Some vs ->
  Forall2 (fun a v => f a = Some v) l vs.
Proof.
  revert vs. induction l; simpl; intros vs E; [injection E as <-; auto|].
  destruct (f a) eqn:F; [|discriminate]. destruct (mapO f l) eqn:M; [|discriminate].
  injection E as <-. constructor; auto.
Qed.

Lemma mapO_intro A B (f : A -> option B) l vs : Forall2 (fun a v => f a = Some v) l vs -> mapO f l = Some vs.
Proof. induction 1; simpl; auto. now rewrite H, IHForall2. Qed.

Lemma Forall2_map_r A B C (R : A -> C -> Prop) (g : B -> C) l bs :
  Forall2 R l (map g bs) -> Forall2 (fun a b => R a (g b)) l bs.
Proof.
  revert bs. induction l; intros [|b bs] F; inversion F; subst; constructor; auto.
Qed.

(** a falsified expression has no value other than false *)
Lemma fails_value I r e : fails I r e -> forall v, eval I r e = Some v -> v = VBool false.
Proof.
  assert (G : forall n e, size e <= n -> fails I r e -> forall v, eval I r e = Some v -> v = VBool false);
    [|intros F; eapply G; [apply le_n | exact F]].
  clear e. induction n; intros e SZ F v E; [destruct e; simpl in SZ; lia|].
  inversion F as [t l a IN Fa|t l NE FA|t a b Ea Fb|]; subst.
  - apply eval_and_inv in E as (bs & NE & M & ->). apply mapO_in, Forall2_map_r in M.
    assert (X : In false bs).
    { assert (L : forall l bs, In a l -> Forall2 (fun a v => eval I r a = Some (VBool v)) l bs ->
        (forall v, eval I r a = Some v -> v = VBool false) -> In false bs).
      { clear. induction l; intros bs IN F H; [destruct IN|]. inversion F as [|? ? ? ? H1 H2]; subst.
        destruct IN as [->|IN]; [left; specialize (H _ H1); congruence | right; eauto]. }
      eapply L; eauto. intros v Ev. eapply IHn; eauto.
      pose proof (size_arg KAnd t l a IN). lia. }
    f_equal. destruct (forallb (fun x => x) bs) eqn:FB; auto.
    rewrite forallb_forall in FB. specialize (FB _ X). discriminate.
  - assert (E' : match mapO (eval I r) l with Some vs => op_val I KOr vs | None => None end = Some v) by exact E.
    destruct (mapO (eval I r) l) as [vs|] eqn:M; [|discriminate]. apply mapO_in in M.
    simpl in E'. destruct (mapO as_bool vs) as [[|b bs]|] eqn:B; try discriminate. injection E' as <-.
    apply mapO_as_bool in B. subst. apply Forall2_map_r in M. f_equal.
    assert (X : forall x, In x (b :: bs) -> x = false).
    { assert (L : forall l bs, Forall (fails I r) l -> (forall a, In a l -> size a <= n) ->
        Forall2 (fun a v => eval I r a = Some (VBool v)) l bs -> forall x, In x bs -> x = false).
      { clear -IHn. induction l; intros bs HF SZ F x IN; inversion F as [|? ? ? ? H1 H2]; subst.
        - destruct IN.
        - inversion HF; subst.
          destruct IN as [->|IN].
          + specialize (IHn a (SZ a (or_introl eq_refl)) H3 _ H1). congruence.
          + eapply IHl; eauto. intros; apply SZ; right; auto. }
      eapply L; [exact FA | | exact M]. intros a Ha. pose proof (size_arg KOr t l a Ha). lia. }
    destruct (b || existsb (fun x => x) bs) eqn:OB; auto.
    apply orb_true_iff in OB as [->|OB]; [apply X; left; auto|].
    apply existsb_exists in OB as (x & IN & ->). apply X. right; auto.
  - cbn [eval mapO] in E. rewrite Ea in E. destruct (eval I r b) as [vb|] eqn:Eb; [|discriminate].
    assert (vb = VBool false).
    { eapply IHn; [|exact Fb|exact Eb]. pose proof (size_arg KImplies t [a; b] b (or_intror (or_introl eq_refl))). lia. }
    subst. simpl in E. congruence.
  - congruence.
Qed.

Lemma useless_name_inj i j : useless_name i = useless_name j -> i = j.
Proof.
  unfold useless_name. intros E.
  assert (S : string_of_nat i = string_of_nat j).
  { revert E. generalize (string_of_nat i), (string_of_nat j). simpl. intros a b E. now injection E. }
  unfold string_of_nat in S.
  assert (U : Nat.to_uint i = Nat.to_uint j).
  { assert (Some (Nat.to_uint i) = Some (Nat.to_uint j)) by (rewrite <- !NilEmpty.usu; now rewrite S). congruence. }
  now apply Unsigned.to_uint_inj.
Qed.

Lemma plain_not_atom a : ~ plain (Atom a).
Proof. intros H; inversion H. Qed.

Lemma plain_kinds k t l : plain (Node k t l) ->
  (k = KVar /\ exists x, l = [Atom (PStr x)] /\ forall i, x <> useless_name i) \/
  (k = KLit /\ exists a, l = [Atom a]) \/
  (k = KCall /\ exists f l', l = Atom (PStr f) :: l' /\ Forall plain l') \/
  (In k op_kinds /\ Forall plain l).
Proof.
  intros H; inversion H; subst.
  - left. eauto. - right; left; eauto. - right; right; left; eauto 6. - right; right; right; auto.
Qed.

Lemma op_not_var k t l : In k op_kinds -> is_var (Node k t l) = false.
Proof. simpl. intuition (subst; reflexivity). Qed.

(** successful rebuilding keeps class and arguments *)
Lemma rebuild_shape k t l e : In k (KVar :: KLit :: KCall :: op_kinds) -> rebuild k t l = Ok e ->
  exists t', e = Node k t' l.
Proof.
  intros K R. simpl in K.
  intuition (subst; simpl in R;
    unfold mkArithN, mkArith2, mkEq, mkCmp, mkBoolN, mkNot, mkImplies, mkIte, mkCall, mkTupleExpr in R;
    repeat match type of R with
      | context [match ?l with _ => _ end] => destruct l eqn:?; simpl in R; try discriminate R
      | bindR ?m _ = Ok _ => destruct m eqn:?; cbn [bindR] in R; try discriminate R
      end; try discriminate R; try contradiction; injection R as <-; eauto).
Qed.

(** two argument lists under two environments *)
Definition args_ref (I : interp) (r r' : env) : list expr -> list expr -> Prop :=
  Forall2 (fun a b => forall v, eval I r a = Some v -> eval I r' b = Some v).

Lemma args_ref_mapO I r r' l l' vs : args_ref I r r' l l' -> mapO (eval I r) l = Some vs ->
  mapO (eval I r') l' = Some vs.
Proof.
  intros F M. apply mapO_in in M. apply mapO_intro. revert vs M.
  induction F; intros vs M; inversion M; subst; constructor; auto.
Qed.

Lemma op_cong I r r' k t t' l l' v : In k op_kinds -> args_ref I r r' l l' ->
  eval I r (Node k t l) = Some v -> eval I r' (Node k t' l') = Some v.
Proof.
  intros K F.
  assert (GEN : match mapO (eval I r) l with Some vs => op_val I k vs | None => None end = Some v ->
                match mapO (eval I r') l' with Some vs => op_val I k vs | None => None end = Some v).
  { destruct (mapO (eval I r) l) eqn:E; [|discriminate]. now rewrite (args_ref_mapO _ _ _ _ _ _ F E). }
  simpl in K.
  repeat destruct K as [<-|K]; try exact GEN; [|destruct K].
  clear GEN. simpl. inversion F as [|c c' ? ? Hc F1]; subst; try discriminate.
  inversion F1 as [|a a' ? ? Ha F2]; subst; try discriminate.
  inversion F2 as [|b b' ? ? Hb F3]; subst; try discriminate.
  inversion F3; subst; try discriminate.
  destruct (eval I r c) as [vc|] eqn:Ec; [|discriminate]. rewrite (Hc _ eq_refl).
  destruct vc as [|[]| | |]; try discriminate; auto.
Qed.

Lemma call_cong I r r' t t' f l l' v : args_ref I r r' l l' ->
  eval I r (Node KCall t (Atom (PStr f) :: l)) = Some v -> eval I r' (Node KCall t' (Atom (PStr f) :: l')) = Some v.
Proof.
  intros F. simpl. destruct (mapO (eval I r) l) eqn:E; [|discriminate].
  now rewrite (args_ref_mapO _ _ _ _ _ _ F E).
Qed.

(** the value of a plain expression does not depend on generated names *)
Definition agrees (r r' : env) : Prop := forall x, (forall i, x <> useless_name i) -> r' x = r x.

Lemma plain_agrees I r r' e : agrees r r' -> plain e -> forall v, eval I r e = Some v -> eval I r' e = Some v.
Proof.
  intros A. induction e using expr_ind'; intros P v E; [discriminate|].
  destruct (plain_kinds _ _ _ P) as [(-> & x & -> & N)|[(-> & a & ->)|[(-> & f & l' & -> & PL)|(K & PL)]]].
  - simpl in *. now rewrite A.
  - exact E.
  - eapply call_cong; [|exact E]. inversion H; subst. clear -H3 PL. induction PL; constructor; inversion H3; subst; auto.
    apply IHPL; auto.
  - eapply op_cong; [exact K | | exact E]. clear -H PL. induction PL; constructor; inversion H; subst; auto.
    apply IHPL; auto.
Qed.

Lemma fails_agrees I r r' e : agrees r r' -> plain e -> fails I r e -> fails I r' e.
Proof.
  intros A. induction e using expr_ind'; intros P F.
  - inversion F; discriminate.
  - inversion F as [t' l a IN Fa|t' l NE FA|t' a b Ea Fb|? E]; subst.
    + apply plain_kinds in P as [[? _]|[[? _]|[[? _]|[_ P]]]]; try discriminate.
      eapply f_and; [exact IN|]. rewrite Forall_forall in *. auto.
    + apply plain_kinds in P as [[? _]|[[? _]|[[? _]|[_ P]]]]; try discriminate.
      apply f_or; auto. rewrite Forall_forall in *. auto.
    + apply plain_kinds in P as [[? _]|[[? _]|[[? _]|[_ P]]]]; try discriminate.
      inversion P as [|? ? Pa P']; subst. inversion P' as [|? ? Pb _]; subst.
      inversion H as [|? ? _ H']; subst. inversion H' as [|? ? Hb _]; subst.
      apply f_imp; auto. eapply plain_agrees; eauto.
    + apply f_eval. eapply plain_agrees; eauto.
Qed.

(* ------------------------------------------------------------------ *)
(** * simplify *)

Lemma mapR_rel A B (f : A -> res B) l l' : mapR f l = Ok l' -> Forall2 (fun a b => f a = Ok b) l l'.
Proof. apply mapR_ok_inv. Qed.

Lemma and_filter_none_lit l : and_filter l = None -> exists t la, In (Node KLit t la) l /\ lit_is_false la = true.
Proof.
  induction l as [|a l IH]; simpl; [discriminate|].
  destruct a as [|k t la].
  - destruct (and_filter l); [discriminate|]. intros _. destruct (IH eq_refl) as (t & la & ? & ?). eauto.
  - destruct k; try (destruct (and_filter l); [discriminate|]; intros _; destruct (IH eq_refl) as (t' & la' & ? & ?); eauto; fail).
    destruct (lit_is_false la) eqn:L; eauto. intros E. destruct (IH E) as (t' & la' & ? & ?). eauto.
Qed.

Lemma and_filter_keeps l l' a : and_filter l = Some l' -> In a l -> is_lit a = false -> In a l'.
Proof.
  revert l'. induction l as [|b l IH]; simpl; intros l' E IN L; [destruct IN|].
  destruct b as [|k t la].
  - destruct (and_filter l); [|discriminate]. injection E as <-. destruct IN as [<-|IN]; [left; auto | right; auto].
  - destruct k; try (destruct (and_filter l); [|discriminate]; injection E as <-;
       destruct IN as [<-|IN]; [left; auto | right; auto]; fail).
    destruct (lit_is_false la); [discriminate|]. destruct IN as [<-|IN]; [discriminate | auto].
Qed.

Lemma fails_lit I r a : fails I r a -> is_lit a = true ->
  exists t la, a = Node KLit t la /\ lit_is_false la = true.
Proof.
  intros F L. destruct a as [|k t la]; [discriminate|]. destruct k; try discriminate.
  inversion F as [| | |? E]; subst. exists t, la. split; auto.
  destruct la as [|[x|] [|]]; try discriminate. simpl in E.
  destruct t; try discriminate; destruct x; try discriminate; simpl in *; injection E as E.
  - destruct (Z.eqb z 0) eqn:Z0; auto.
  - subst. reflexivity.
Qed.

Lemma lit_false_filter l t la : In (Node KLit t la) l -> lit_is_false la = true -> and_filter l = None.
Proof.
  induction l as [|b l IH]; simpl; intros IN L; [destruct IN|].
  destruct IN as [->|IN]; [now rewrite L|].
  rewrite (IH IN L). destruct b as [|[]]; auto. destruct (lit_is_false args); auto.
Qed.

Lemma simplify_and_fails I r t l e' a : simplify_top (Node KAnd t l) = Ok e' -> In a l -> fails I r a -> fails I r e'.
Proof.
  cbn [simplify_top]. intros E IN F.
  destruct (and_filter l) as [l'|] eqn:A.
  - destruct (is_lit a) eqn:L.
    { destruct (fails_lit _ _ _ F L) as (ta & la & -> & Z). rewrite (lit_false_filter _ _ _ IN Z) in A. discriminate. }
    pose proof (and_filter_keeps _ _ _ A IN L) as IN'.
    destruct l' as [|b l']; [destruct IN'|].
    destruct l' as [|c l'].
    + injection E as <-. destruct IN' as [->|[]]. exact F.
    + unfold mkBoolN in E. destruct (check_types TBool (b :: c :: l')); cbn [bindR] in E; [|discriminate].
      injection E as <-. eapply f_and; eauto.
  - injection E as <-. apply f_eval. reflexivity.
Qed.

Lemma simplify_and_eval I r t l e' v : check_types TBool l = Ok tt -> simplify_top (Node KAnd t l) = Ok e' ->
  eval I r (Node KAnd t l) = Some v -> eval I r e' = Some v.
Proof.
  cbn [simplify_top]. intros C E EV. apply eval_and_inv in EV as (bs & NE & M & ->).
  destruct (and_filter l) as [l'|] eqn:A.
  - destruct (and_filter_some I r l _ C A M) as (bs' & M' & FB).
    destruct l' as [|b l'].
    + injection E as <-. simpl in M'. simpl. injection M' as M'. destruct bs'; [|discriminate]. now rewrite <- FB.
    + destruct l' as [|c l'].
      * injection E as <-. simpl in M'. destruct (eval I r b) as [vb|]; [|discriminate].
        destruct bs' as [|b0 [|]]; try discriminate. injection M' as ->. rewrite <- FB. simpl. now rewrite andb_true_r.
      * unfold mkBoolN in E. destruct (check_types TBool (b :: c :: l')); cbn [bindR] in E; [|discriminate].
        injection E as <-. rewrite <- FB. apply eval_and_intro; auto. destruct bs'; [|discriminate].
        apply mapO_in in M'. inversion M'.
  - injection E as <-. rewrite (and_filter_none I r l _ C A M). reflexivity.
Qed.
