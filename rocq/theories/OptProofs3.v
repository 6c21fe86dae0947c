(** [optimize_useless_equality] on conditions in which no equation is propagated:
    the result is valid exactly when the condition is. *)

From Coq Require Import String List ZArith Bool Lia.
From Verif Require Import Ast Semantics Dict IrModel IrProofs IrProofs2 IrProofs3 IrProofs4 PySem OptProofs OptProofs2 PyProofs3.
Import ListNotations.
Local Open Scope string_scope.
Local Open Scope list_scope.

(* ------------------------------------------------------------------ *)
(** * Specification *)

Section Types.
  (** types of the functions and of the variables *)
  Variables (F : dict (list ty * ty)) (G : string -> option ty).

  Definition all_are (t : ty) (ts : list ty) : bool := match ts with [] => false | _ => forallb (ty_eqb t) ts end.
  (** the type of an operation, given the types of its operands *)
  Definition op_type (k : kind) (ts : list ty) : option ty :=
    match k, ts with
    | (KAdd | KMul), _ => if all_are TInt ts then Some TInt else None
    | (KSub | KDiv | KMod), [a; b] => if ty_eqb a TInt && ty_eqb b TInt then Some TInt else None
    | (KLt | KLe | KGt | KGe), [a; b] => if ty_eqb a TInt && ty_eqb b TInt then Some TBool else None
    | KEq, [a; b] => if ty_eqb a b then Some TBool else None
    | (KAnd | KOr), _ => if all_are TBool ts then Some TBool else None
    | KNot, [a] => if ty_eqb a TBool then Some TBool else None
    | KImplies, [a; b] => if ty_eqb a TBool && ty_eqb b TBool then Some TBool else None
    | KIte, [c; a; b] => if ty_eqb c TBool && ty_eqb a b then Some a else None
    | _, _ => None
    end.
  Inductive typed : expr -> ty -> Prop :=
  | ty_var x t : G x = Some t -> typed (mkVar x t) t
  | ty_int z : typed (IntLit z) TInt
  | ty_bool b : typed (BoolLit b) TBool
  | ty_call f ts t l : dget F f = Some (ts, t) -> Forall2 typed l ts -> typed (Node KCall t (Atom (PStr f) :: l)) t
  | ty_op k l ts t : op_type k ts = Some t -> Forall2 typed l ts -> typed (Node k t l) t.

  (** every variable has a value of its type *)
  Definition suits (r : env) : Prop := forall x t, G x = Some t -> exists v, r x = Some v /\ of_type t v = true.

  (** division is total, functions give values of their types *)
  Definition total (I : interp) : Prop :=
    (forall a b, i_div I a b <> None) /\ (forall a b, i_mod I a b <> None) /\
    forall f ts t vs, dget F f = Some (ts, t) -> Forall2 (fun t v => of_type t v = true) ts vs ->
      exists v, i_call I f vs = Some v /\ of_type t v = true.

  (** [e] is true for all values of the variables *)
  Definition true_for_all (I : interp) (e : expr) : Prop := forall r, suits r -> eval I r e = Some (VBool true).
End Types.

(** one conjunct of [e] is an equation with the variable [x] on a side *)
Inductive equated (x : string) : expr -> Prop :=
| eq_left t u b : equated x (Node KEq t [mkVar x u; b])
| eq_right t u a : equated x (Node KEq t [a; mkVar x u])
| eq_and t l a : In a l -> equated x a -> equated x (Node KAnd t l).

(** The variables that hypotheses of implications in [vc] equate with something
    also occur outside of the implication. *)
Definition quiet (vc : expr) : Prop :=
  forall t a b x, subexpr (Node KImplies t [a; b]) vc -> equated x a ->
    occurrences x (Node KImplies t [a; b]) <> occurrences x vc.

(** types with more than one value *)
Definition plural (t : ty) : bool := match t with TInt | TBool | TList TInt | TList TBool => true | _ => false end.

(** the variables together with the first [n] new ones *)
Definition with_new (G : string -> option ty) (n : nat) (x : string) : option ty :=
  if existsb (fun i => String.eqb x (useless_name i)) (seq 0 n) then Some TBool else G x.

(* ------------------------------------------------------------------ *)
(** * Typing *)

Lemma all_are_spec t ts : all_are t ts = true -> ts <> [] /\ Forall (eq t) ts.
Proof.
  destruct ts as [|u ts]; [discriminate|]. cbn [all_are]. intros H. split; [discriminate|].
  rewrite forallb_forall in H. rewrite Forall_forall. intros v IN. specialize (H v IN). now apply IrProofs.ty_eqb_eq in H.
Qed.
Lemma ty_eqb_same t : ty_eqb t t = true.
Proof. now apply IrProofs.ty_eqb_eq. Qed.
Lemma check_all t l : Forall (fun a => type_of a = Ok t) l -> check_types t l = Ok tt.
Proof. induction 1 as [|a l H _ IH]; cbn; auto. rewrite H. cbn. now rewrite ty_eqb_same. Qed.
Lemma types_all t l ts : Forall2 (fun a t => type_of a = Ok t) l ts -> Forall (eq t) ts -> Forall (fun a => type_of a = Ok t) l.
Proof. induction 1; intros A; inversion A; subst; constructor; auto. Qed.

Ltac invF := repeat match goal with
  | H : Forall2 _ _ (_ :: _) |- _ => inversion H; subst; clear H
  | H : Forall2 _ _ [] |- _ => inversion H; subst; clear H
  end.

(** the cases of [op_type] *)
Inductive op_case : kind -> list ty -> ty -> Prop :=
| oc_all k u ts : (In k [KAdd; KMul] /\ u = TInt) \/ (In k [KAnd; KOr] /\ u = TBool) -> ts <> [] -> Forall (eq u) ts -> op_case k ts u
| oc_int k : In k [KSub; KDiv; KMod] -> op_case k [TInt; TInt] TInt
| oc_cmp k : In k [KLt; KLe; KGt; KGe] -> op_case k [TInt; TInt] TBool
| oc_eq a : op_case KEq [a; a] TBool
| oc_not : op_case KNot [TBool] TBool
| oc_imp : op_case KImplies [TBool; TBool] TBool
| oc_ite a : op_case KIte [TBool; a; a] a.
Lemma op_cases k ts t : op_type k ts = Some t -> op_case k ts t.
Proof.
  intros O.
  assert (ALL : forall u, (In k [KAdd; KMul] /\ u = TInt) \/ (In k [KAnd; KOr] /\ u = TBool) -> (if all_are u ts then Some u else None) = Some t -> op_case k ts t).
  { intros u K. destruct (all_are u ts) eqn:A; [|discriminate]. intros [= <-]. apply all_are_spec in A as [NE A]. now apply oc_all. }
  destruct k; try discriminate O;
    try (refine (ALL TInt _ O); left; cbn; auto; fail); try (refine (ALL TBool _ O); right; cbn; auto; fail); clear ALL;
    destruct ts as [|a ts]; try discriminate O; destruct ts as [|b ts]; try discriminate O; try (destruct ts as [|c ts]; try discriminate O); try (destruct ts as [|]; try discriminate O);
    cbn [op_type] in O;
    repeat match type of O with
      | (if (?p && ?q)%bool then _ else _) = _ => let P := fresh "P" in destruct p eqn:P; [apply IrProofs.ty_eqb_eq in P; subst; cbn [andb] in O | discriminate O]
      | (if ?p then _ else _) = _ => let P := fresh "P" in destruct p eqn:P; [apply IrProofs.ty_eqb_eq in P; subst | discriminate O]
      end; injection O as <-; first [apply oc_eq | apply oc_not | apply oc_imp | apply oc_ite | apply oc_int; cbn; auto 6; fail | apply oc_cmp; cbn; auto 6; fail].
Qed.

Lemma rebuild_typed k t l ts : op_type k ts = Some t -> Forall2 (fun a t => type_of a = Ok t) l ts -> rebuild k t l = Ok (Node k t l).
Proof.
  intros O T. apply op_cases in O. destruct O as [k u ts K NE A|k K|k K|a| | |a].
  - pose proof (types_all u _ _ T A) as TA. pose proof (check_all _ _ TA) as CH. assert (NL : l <> []) by (destruct T; congruence).
    destruct TA as [|a l TA _]; [congruence|].
    destruct K as [[[<-|[<-|[]]] ->]|[[<-|[<-|[]]] ->]]; cbn [rebuild]; unfold mkArithN, mkBoolN; rewrite ?TA; cbn [bindR]; rewrite CH; reflexivity.
  - invF. destruct K as [<-|[<-|[<-|[]]]]; cbn; repeat match goal with H : type_of _ = Ok _ |- _ => rewrite H; clear H end; reflexivity.
  - invF. destruct K as [<-|[<-|[<-|[<-|[]]]]]; cbn; repeat match goal with H : type_of _ = Ok _ |- _ => rewrite H; clear H end; reflexivity.
  - invF. reflexivity.
  - invF. cbn. match goal with H : type_of _ = Ok _ |- _ => rewrite H end. reflexivity.
  - invF. cbn. repeat match goal with H : type_of _ = Ok _ |- _ => rewrite H; clear H end. reflexivity.
  - invF. cbn. repeat match goal with H : type_of _ = Ok _ |- _ => rewrite H; clear H end. cbn. now rewrite ty_eqb_same.
Qed.
Lemma op_kind k ts t : op_type k ts = Some t -> In k op_kinds.
Proof.
  intros O. apply op_cases in O. destruct O as [k u ts K NE A|k K|k K|a| | |a]; try (cbn; tauto).
  - destruct K as [[[<-|[<-|[]]] ->]|[[<-|[<-|[]]] ->]]; cbn; tauto.
  - destruct K as [<-|[<-|[<-|[]]]]; cbn; tauto.
  - destruct K as [<-|[<-|[<-|[<-|[]]]]]; cbn; tauto.
Qed.

Section Typed.
Variables (F : dict (list ty * ty)) (G : string -> option ty).

Lemma typed_ind' (P : expr -> ty -> Prop) :
  (forall x t, G x = Some t -> P (mkVar x t) t) -> (forall z, P (IntLit z) TInt) -> (forall b, P (BoolLit b) TBool) ->
  (forall f ts t l, dget F f = Some (ts, t) -> Forall2 (typed F G) l ts -> Forall2 P l ts -> P (Node KCall t (Atom (PStr f) :: l)) t) ->
  (forall k l ts t, op_type k ts = Some t -> Forall2 (typed F G) l ts -> Forall2 P l ts -> P (Node k t l) t) ->
  forall e t, typed F G e t -> P e t.
Proof.
  intros H1 H2 H3 H4 H5. fix IH 3. intros e t T. destruct T as [x t D|z|b|f ts t l D TL|k l ts t O TL]; auto.
  - eapply H4; eauto. clear -TL IH. induction TL; constructor; auto.
  - eapply H5; eauto. clear -TL IH. induction TL; constructor; auto.
Qed.
Lemma typed_type e t : typed F G e t -> type_of e = Ok t.
Proof. destruct 1; reflexivity. Qed.
Lemma typeds_type l ts : Forall2 (typed F G) l ts -> Forall2 (fun a t => type_of a = Ok t) l ts.
Proof. induction 1; constructor; auto using typed_type. Qed.

Section Eval.
Variables (I : interp) (r : env).
Hypothesis TOT : total F I.
Hypothesis FIT : suits G r.

Lemma ints_of ts vs : Forall2 (fun t v => of_type t v = true) ts vs -> Forall (eq TInt) ts -> exists zs, mapO as_int vs = Some zs /\ List.length zs = List.length vs.
Proof.
  induction 1 as [|t v ts vs H _ IH]; intros A; [exists []; auto|]. inversion A as [|? ? <- A']; subst. destruct (IH A') as (zs & E & L).
  destruct v; try discriminate H. cbn. rewrite E. eexists. split; [reflexivity|]. cbn. now rewrite L.
Qed.
Lemma bools_of ts vs : Forall2 (fun t v => of_type t v = true) ts vs -> Forall (eq TBool) ts -> exists zs, mapO as_bool vs = Some zs /\ List.length zs = List.length vs.
Proof.
  induction 1 as [|t v ts vs H _ IH]; intros A; [exists []; auto|]. inversion A as [|? ? <- A']; subst. destruct (IH A') as (zs & E & L).
  destruct v; try discriminate H. cbn. rewrite E. eexists. split; [reflexivity|]. cbn. now rewrite L.
Qed.
Lemma mapO_typed l ts : Forall2 (fun e t => exists v, eval I r e = Some v /\ of_type t v = true) l ts ->
  exists vs, mapO (eval I r) l = Some vs /\ Forall2 (fun t v => of_type t v = true) ts vs.
Proof.
  induction 1 as [|e t l ts (v & E & O) _ (vs & M & A)]; cbn; [eauto|]. rewrite E, M. eauto.
Qed.

Lemma typed_value e t : typed F G e t -> exists v, eval I r e = Some v /\ of_type t v = true.
Proof.
  revert e t. apply typed_ind'.
  - intros x t D. exact (FIT x t D).
  - intros z. now exists (VInt z).
  - intros b. now exists (VBool b).
  - intros f ts t l D _ H. apply mapO_typed in H as (vs & M & A). destruct TOT as (_ & _ & C). destruct (C f ts t vs D A) as (v & E & O).
    exists v. cbn [eval]. rewrite M. auto.
  - intros k l ts t O _ H. pose proof (mapO_typed _ _ H) as (vs & M & A). apply op_cases in O. destruct O as [k u ts K NE Al|k K|k K|a| | |a].
    + assert (NV : List.length vs <> 0) by (destruct A; [congruence | discriminate]).
      destruct K as [[K ->]|[K ->]].
      * destruct (ints_of _ _ A Al) as (zs & Z & L). destruct zs as [|z zs]; [cbn in L; congruence|].
        destruct K as [<-|[<-|[]]]; cbn [eval]; rewrite M; cbn [op_val]; rewrite Z; eauto.
      * destruct (bools_of _ _ A Al) as (zs & Z & L). destruct zs as [|z zs]; [cbn in L; congruence|].
        destruct K as [<-|[<-|[]]]; cbn [eval]; rewrite M; cbn [op_val]; rewrite Z; eauto.
    + inversion A as [|? v1 ? vs1 O1 A1]; subst. inversion A1 as [|? v2 ? vs2 O2 A2]; subst. inversion A2; subst.
      destruct v1 as [x| | | |]; try discriminate O1. destruct v2 as [y| | | |]; try discriminate O2.
      destruct TOT as (DV & MD & _). specialize (DV x y). specialize (MD x y).
      destruct K as [<-|[<-|[<-|[]]]]; cbn [eval]; rewrite M; cbn [op_val int2]; [eauto | |].
      * destruct (i_div I x y) as [q|]; [|congruence]. cbn. eauto.
      * destruct (i_mod I x y) as [q|]; [|congruence]. cbn. eauto.
    + inversion A as [|? v1 ? vs1 O1 A1]; subst. inversion A1 as [|? v2 ? vs2 O2 A2]; subst. inversion A2; subst.
      destruct v1 as [x| | | |]; try discriminate O1. destruct v2 as [y| | | |]; try discriminate O2.
      destruct K as [<-|[<-|[<-|[<-|[]]]]]; cbn [eval]; rewrite M; cbn [op_val int2]; eauto.
    + inversion A as [|? v1 ? vs1 O1 A1]; subst. inversion A1 as [|? v2 ? vs2 O2 A2]; subst. inversion A2; subst.
      cbn [eval]. rewrite M. cbn. eauto.
    + inversion A as [|? v1 ? vs1 O1 A1]; subst. inversion A1; subst. destruct v1; try discriminate O1. cbn [eval]. rewrite M. cbn. eauto.
    + inversion A as [|? v1 ? vs1 O1 A1]; subst. inversion A1 as [|? v2 ? vs2 O2 A2]; subst. inversion A2; subst.
      destruct v1; try discriminate O1. destruct v2; try discriminate O2. cbn [eval]. rewrite M. cbn. eauto.
    + inversion H as [|c ? ? ? (vc & Ec & Oc) H1]; subst. inversion H1 as [|x ? ? ? (va & Ea & Oa) H2]; subst. inversion H2 as [|y ? ? ? (vb & Eb & Ob) H3]; subst.
      inversion H3; subst. destruct vc as [|[]| | |]; try discriminate Oc; cbn [eval]; rewrite Ec; eauto.
Qed.
End Eval.

(** ** simplify *)

Lemma simplify_typed e t : typed F G e t -> exists e', simplify e = Ok e' /\ typed F G e' t.
Proof.
  revert e t. apply typed_ind'.
  - intros x t D. exists (mkVar x t). split; [reflexivity | now constructor].
  - intros z. exists (IntLit z). split; [reflexivity | constructor].
  - intros b. exists (BoolLit b). split; [reflexivity | constructor].
  - intros f ts t l D _ H.
    assert (M : exists l', mapR simplify l = Ok l' /\ Forall2 (typed F G) l' ts).
    { clear D. induction H as [|e t' l ts (e' & E & T) _ (l' & M & T')]; cbn; [eauto|]. rewrite E. cbn. rewrite M. cbn. eauto. }
    destruct M as (l' & M & T). exists (Node KCall t (Atom (PStr f) :: l')). split; [|eapply ty_call; eauto].
    cbn [simplify mapR]. cbn [bindR]. rewrite M. reflexivity.
  - intros k l ts t O _ H.
    assert (M : exists l', mapR simplify l = Ok l' /\ Forall2 (typed F G) l' ts).
    { clear O. induction H as [|e t' l ts (e' & E & T) _ (l' & M & T')]; cbn; [eauto|]. rewrite E. cbn. rewrite M. cbn. eauto. }
    destruct M as (l' & M & T). cbn [simplify]. rewrite M. cbn [bindR]. rewrite (rebuild_typed _ _ _ _ O (typeds_type _ _ T)). cbn [bindR].
    destruct (kind_eqb k KAnd) eqn:K.
    2:{ exists (Node k t l'). split; [|eapply ty_op; eauto]. apply simplify_top_other. intros ->. discriminate K. }
    assert (k = KAnd) by (destruct k; try discriminate K; auto). subst k.
    assert (t = TBool /\ Forall (eq TBool) ts) as [-> AB].
    { cbn [op_type] in O. destruct (all_are TBool ts) eqn:A; [|discriminate O]. injection O as <-. split; auto. now apply all_are_spec in A. }
    assert (TB : Forall (fun a => typed F G a TBool) l').
    { clear -T AB. induction T; constructor; inversion AB; subst; auto. }
    cbn [simplify_top]. destruct (and_filter l') as [[|a [|b m]]|] eqn:A.
    + eexists; split; [reflexivity | constructor].
    + assert (X : Forall (fun a => typed F G a TBool) [a]).
      { clear -A TB. revert A. generalize ([a]). induction l' as [|c l' IH]; intros m A; cbn in A; [injection A as <-; constructor|]. inversion TB; subst.
        destruct c as [|[] ? ?]; try (destruct (and_filter l') as [m'|]; [|discriminate A]; injection A as <-; constructor; auto).
        match type of A with (if ?b then _ else _) = _ => destruct b; [discriminate A|] end. auto. }
      inversion X; subst. eauto.
    + assert (X : Forall (fun a => typed F G a TBool) (a :: b :: m)).
      { clear -A TB. revert A. generalize (a :: b :: m). induction l' as [|c l' IH]; intros n A; cbn in A; [injection A as <-; constructor|]. inversion TB; subst.
        destruct c as [|[] ? ?]; try (destruct (and_filter l') as [m'|]; [|discriminate A]; injection A as <-; constructor; auto).
        match type of A with (if ?b then _ else _) = _ => destruct b; [discriminate A|] end. auto. }
      exists (Node KAnd TBool (a :: b :: m)). split.
      * unfold mkBoolN. rewrite check_all; [reflexivity|]. eapply Forall_impl; [|exact X]. intros c; apply typed_type.
      * apply ty_op with (ts := map (fun _ => TBool) (a :: b :: m)).
        -- cbn [op_type]. assert (Q : all_are TBool (map (fun _ => TBool) (a :: b :: m)) = true); [|now rewrite Q].
           cbn [all_are map]. apply forallb_forall. cbn. intros u U. destruct U as [<-|[<-|U]]; auto. apply in_map_iff in U as (? & <- & _). reflexivity.
        -- clear -X. induction X; constructor; auto.
    + eexists; split; [reflexivity | constructor].
Qed.
Lemma typed_shaped e t : typed F G e t -> shaped e.
Proof.
  revert e t. apply typed_ind'.
  - constructor.
  - constructor.
  - constructor.
  - intros f ts t l _ _ H. constructor. clear -H. induction H; constructor; auto.
  - intros k l ts t O _ H. apply sh_op; [eapply op_kind; eauto|]. clear -H. induction H; constructor; auto.
Qed.
Lemma simplify_same I r e t e' : total F I -> suits G r -> typed F G e t -> simplify e = Ok e' -> eval I r e' = eval I r e.
Proof.
  intros TOT FIT T S. destruct (typed_value I r TOT FIT e t T) as (v & V & _). rewrite V.
  now apply (simplify_shaped I r e (typed_shaped _ _ T) e' S).
Qed.
End Typed.
