(** Continuation of OptProofs4: the theorem about quiet conditions. *)

From Coq Require Import String List ZArith Bool Lia.
From Verif Require Import Ast Semantics Dict IrModel IrProofs IrProofs2 IrProofs3 IrProofs4 PySem OptProofs OptProofs2 PyProofs3 OptProofs3 OptProofs4.
Import ListNotations.
Local Open Scope string_scope.
Local Open Scope list_scope.

Section Opt.
Variables (F : dict (list ty * ty)) (G : string -> option ty) (vc : expr).
Hypothesis NEW : forall i, G (useless_name i) = None.
Hypothesis QUIET : quiet vc.
Hypothesis TV : typed F G vc TBool.

(** a dropped equation has a side that is used nowhere else *)
Definition lonely (p : expr * nat) : Prop :=
  exists t a b x u, fst p = Node KEq t [a; b] /\ (a = mkVar x u \/ b = mkVar x u) /\ occurrences x vc = 1 /\ typed F G (fst p) TBool.

Lemma new_get n i : i < n -> with_new G n (useless_name i) = Some TBool.
Proof.
  intros L. unfold with_new. assert (E : existsb (fun j => String.eqb (useless_name i) (useless_name j)) (seq 0 n) = true); [|now rewrite E].
  apply existsb_exists. exists i. split; [apply in_seq; lia | apply String.eqb_refl].
Qed.
Lemma new_old n x t : G x = Some t -> with_new G n x = Some t.
Proof.
  intros D. unfold with_new. destruct (existsb (fun j => String.eqb x (useless_name j)) (seq 0 n)) eqn:E; auto.
  apply existsb_exists in E as (i & _ & E). apply String.eqb_eq in E. subst. rewrite NEW in D. discriminate.
Qed.
Lemma new_inv n x t : with_new G n x = Some t -> (exists i, i < n /\ x = useless_name i /\ t = TBool) \/ G x = Some t.
Proof.
  unfold with_new. destruct (existsb (fun j => String.eqb x (useless_name j)) (seq 0 n)) eqn:E; auto.
  intros [= <-]. apply existsb_exists in E as (i & L & E). apply String.eqb_eq in E. subst. apply in_seq in L. left. exists i. repeat split; auto; lia.
Qed.
Lemma typed_new n e t : typed F G e t -> typed F (with_new G n) e t.
Proof.
  revert e t. apply typed_ind'.
  - intros x t D. constructor. now apply new_old.
  - constructor.
  - constructor.
  - intros f ts t l D _ H. eapply ty_call; eauto.
  - intros k l ts t D _ H. eapply ty_op; eauto.
Qed.

Definition result (e : expr) (nv : list expr) (e' : expr) (nv' : list expr) (D : list (expr * nat)) : Prop :=
  good_nv nv' /\ drops e D e' /\ map snd D = seq (List.length nv) (List.length nv' - List.length nv) /\ List.length nv <= List.length nv' /\ Forall lonely D.
Definition results (l : list expr) (nv : list expr) (l' : list expr) (nv' : list expr) (D : list (expr * nat)) : Prop :=
  good_nv nv' /\ dropss l D l' /\ map snd D = seq (List.length nv) (List.length nv' - List.length nv) /\ List.length nv <= List.length nv' /\ Forall lonely D.

Lemma list_drops (f : expr -> list expr -> res (expr * list expr)) l ts :
  Forall2 (fun e (t : ty) => forall nv, good_nv nv -> exists e' nv' D, f e nv = Ok (e', nv') /\ result e nv e' nv' D) l ts ->
  forall nv, good_nv nv -> exists l' nv' D, mapRS f l nv = Ok (l', nv') /\ results l nv l' nv' D.
Proof.
  induction 1 as [|e t l ts He _ IH]; intros nv GN.
  - exists [], nv, []. split; [reflexivity|]. split; auto. split; [constructor|]. rewrite PeanoNat.Nat.sub_diag. auto.
  - destruct (He nv GN) as (e' & nv1 & D1 & E1 & G1 & R1 & S1 & L1 & A1). destruct (IH nv1 G1) as (l' & nv2 & D2 & E2 & G2 & R2 & S2 & L2 & A2).
    exists (e' :: l'), nv2, (D1 ++ D2). split; [cbn [mapRS]; rewrite E1; cbn [bindR fst snd]; rewrite E2; reflexivity|].
    split; auto. split; [now constructor|]. split; [|split; [lia | apply Forall_app; auto]].
    rewrite map_app, S1, S2. replace (List.length nv2 - List.length nv) with ((List.length nv1 - List.length nv) + (List.length nv2 - List.length nv1)) by lia.
    rewrite seq_app. f_equal. f_equal. lia.
Qed.

Lemma kept_of D (nv nv' : list expr) : map snd D = seq (List.length nv) (List.length nv' - List.length nv) -> List.length nv <= List.length nv' -> kept (with_new G (List.length nv')) D.
Proof.
  intros S L q i IN. apply new_get. apply (in_map snd) in IN. rewrite S in IN. apply in_seq in IN. cbn in IN. lia.
Qed.

Lemma occ_zero_typed e t x u : typed F G e t -> e = mkVar x u -> subexpr e vc -> occurrences x vc > 0.
Proof.
  intros T -> S. pose proof (occ_sub F G x _ vc TBool TV S eq_refl) as L. rewrite occ_var, String.eqb_refl in L. lia.
Qed.

(** the equation at hand: dropped, trivial, or kept *)
Lemma eq_drops nv t a b : good_nv nv -> typed F G (Node KEq t [a; b]) TBool -> subexpr (Node KEq t [a; b]) vc ->
  exists o, opt_eq (count_uses vc []) nv [a; b] = Ok o /\
    match o with
    | Some (e', nv') => exists D, result (Node KEq t [a; b]) nv e' nv' D
    | None => True
    end.
Proof.
  intros GN T S.
  assert (AB : exists u, typed F G a u /\ typed F G b u).
  { inversion T as [| | | |? ? ts ? O TL]; subst. apply op_cases in O. inversion O; subst; try (cbn in *; intuition discriminate).
    inversion TL as [|? ? ? ? Ta TL']; subst. inversion TL'; subst. eauto. }
  destruct AB as (u & Ta & Tb).
  pose proof (typed_plain F G NEW _ _ Ta) as Pa. pose proof (typed_plain F G NEW _ _ Tb) as Pb.
  assert (Sa : subexpr a vc) by (eapply subexpr_trans; [|exact S]; eapply sub_arg; [now left | apply sub_refl]).
  assert (Sb : subexpr b vc) by (eapply subexpr_trans; [|exact S]; eapply sub_arg; [right; now left | apply sub_refl]).
  assert (REP : forall x v, (a = mkVar x v \/ b = mkVar x v) -> occurrences x vc = 1 ->
     exists D, result (Node KEq t [a; b]) nv (mkVar (useless_name (List.length nv)) TBool) (set_add nv (mkVar (useless_name (List.length nv)) TBool)) D).
  { intros x v X O. exists [(Node KEq t [a; b], List.length nv)]. rewrite set_add_fresh by auto. split; [now apply good_nv_snoc|]. split; [apply d_eq|].
    rewrite app_length. cbn [List.length]. replace (List.length nv + 1 - List.length nv) with 1 by lia. split; [reflexivity|]. split; [lia|]. constructor; [|constructor].
    exists t, a, b, x, v. repeat split; auto. }
  assert (ONE : forall c x, var_name c = Some x -> plain c -> (exists w, typed F G c w) -> subexpr c vc -> exists v, c = mkVar x v /\ count_is_one (count_uses vc []) x = Ok (Nat.eqb (occurrences x vc) 1)).
  { intros c x V P (w & W) SC. destruct (var_name_plain _ _ P V) as (v & ->). exists v. split; auto. unfold count_is_one. now rewrite (count_in _ _ (occ_zero_typed _ _ _ _ W eq_refl SC)). }
  cbn [opt_eq].
  destruct (var_name a) as [x|] eqn:Va.
  - destruct (ONE a x Va Pa (ex_intro _ u Ta) Sa) as (v & Ea & Ca). rewrite Ca. cbn [bindR]. destruct (Nat.eqb_spec (occurrences x vc) 1) as [O|O].
    { eexists. split; [reflexivity|]. eapply REP; eauto. }
    destruct (var_name b) as [y|] eqn:Vb.
    + destruct (ONE b y Vb Pb (ex_intro _ u Tb) Sb) as (w & Eb & Cb). rewrite Cb. cbn [bindR]. destruct (Nat.eqb_spec (occurrences y vc) 1) as [O'|O'].
      { eexists. split; [reflexivity|]. eapply REP; eauto. }
      destruct (String.eqb_spec x y) as [<-|]; [|eexists; split; [reflexivity | exact Logic.I]].
      eexists. split; [reflexivity|]. exists []. subst a b. split; auto. split; [apply d_same|]. rewrite PeanoNat.Nat.sub_diag. auto.
    + cbn [bindR]. eexists. split; [reflexivity | exact Logic.I].
  - cbn [bindR]. destruct (var_name b) as [y|] eqn:Vb.
    + destruct (ONE b y Vb Pb (ex_intro _ u Tb) Sb) as (w & Eb & Cb). rewrite Cb. cbn [bindR]. destruct (Nat.eqb_spec (occurrences y vc) 1) as [O'|O'].
      { eexists. split; [reflexivity|]. eapply REP; eauto. }
      eexists. split; [reflexivity | exact Logic.I].
    + cbn [bindR]. eexists. split; [reflexivity | exact Logic.I].
Qed.

Lemma optimize_drops fuel : forall e t nv, typed F G e t -> subexpr e vc -> size e <= fuel -> good_nv nv ->
  exists e' nv' D, optimize fuel (count_uses vc []) e nv = Ok (e', nv') /\ result e nv e' nv' D.
Proof.
  induction fuel as [|fuel IH]; intros e t nv T S SZ GN.
  { destruct e; cbn in SZ; lia. }
  assert (SAME : forall nv, good_nv nv -> forall e, drops e [] e -> result e nv e nv []).
  { intros nv0 G0 e0 D0. split; auto. split; auto. rewrite PeanoNat.Nat.sub_diag. auto. }
  pose proof T as T0. destruct T as [x t D|z|b|f ts t l D TL|k l ts t O TL].
  - cbn in SZ. destruct fuel as [|fuel]; [lia|]. exists (mkVar x t), nv, []. split; [reflexivity|]. apply SAME; auto. constructor.
  - cbn in SZ. destruct fuel as [|fuel]; [lia|]. exists (IntLit z), nv, []. split; [reflexivity|]. apply SAME; auto. constructor.
  - cbn in SZ. destruct fuel as [|fuel]; [lia|]. exists (BoolLit b), nv, []. split; [reflexivity|]. apply SAME; auto. constructor.
  - assert (L : Forall2 (fun e (t : ty) => forall nv, good_nv nv -> exists e' nv' D, optimize fuel (count_uses vc []) e nv = Ok (e', nv') /\ result e nv e' nv' D) l ts).
    { assert (SL : forall a, In a l -> subexpr a vc /\ size a <= fuel).
      { intros a IN. split; [eapply subexpr_trans; [|exact S]; eapply sub_arg; [right; exact IN | apply sub_refl]|].
        pose proof (size_arg KCall t (Atom (PStr f) :: l) a (or_intror IN)). lia. }
      clear -TL SL IH. induction TL; constructor.
      - intros nv0 G0. destruct (SL x (or_introl eq_refl)). eapply IH; eauto.
      - apply IHTL. intros a IN. apply SL. now right. }
    assert (FU : exists g, fuel = Datatypes.S g) by (destruct fuel; [cbn in SZ; lia | eauto]). destruct FU as (g & FU).
    destruct (list_drops _ _ _ L nv GN) as (l' & nv' & D' & M & G1 & R1 & S1 & L1 & A1).
    assert (TN : typed F (with_new G (List.length nv')) (Node KCall t (Atom (PStr f) :: l')) t).
    { eapply ty_call; eauto. eapply (drops_typed F G _ (typed_new _)); eauto using kept_of. }
    destruct (simplify_typed F _ _ _ TN) as (e3 & S3 & T3).
    exists e3, nv', D'. split.
    + cbn [optimize bindR mapRS]. rewrite FU at 1. cbn [optimize bindR fst snd]. rewrite M. cbn [bindR fst snd rebuild mkCall]. rewrite S3. reflexivity.
    + split; auto. split; auto. eapply d_simp; [|exact S3]. now constructor.
  - assert (KO : In k op_kinds) by (eapply op_kind; eauto).
    assert (L : Forall2 (fun e (t : ty) => forall nv, good_nv nv -> exists e' nv' D, optimize fuel (count_uses vc []) e nv = Ok (e', nv') /\ result e nv e' nv' D) l ts).
    { assert (SL : forall a, In a l -> subexpr a vc /\ size a <= fuel).
      { intros a IN. split; [eapply subexpr_trans; [|exact S]; eapply sub_arg; [exact IN | apply sub_refl]|].
        pose proof (size_arg k t l a IN). lia. }
      clear -TL SL IH. induction TL; constructor.
      - intros nv0 G0. destruct (SL x (or_introl eq_refl)). eapply IH; eauto.
      - apply IHTL. intros a IN. apply SL. now right. }
    destruct (list_drops _ _ _ L nv GN) as (l' & nv' & D' & M & G1 & R1 & S1 & L1 & A1).
    assert (TL' : Forall2 (typed F (with_new G (List.length nv'))) l' ts) by (eapply (drops_typed F G _ (typed_new _)); eauto using kept_of).
    assert (TN : typed F (with_new G (List.length nv')) (Node k t l') t) by (eapply ty_op; eauto).
    destruct (simplify_typed F _ _ _ TN) as (e3 & S3 & T3).
    assert (REST : exists e' nv' D, (rs <- mapRS (optimize fuel (count_uses vc [])) l nv ;; e2 <- rebuild k t (fst rs) ;; e3 <- simplify e2 ;; Ok (e3, snd rs)) = Ok (e', nv') /\
                     result (Node k t l) nv e' nv' D).
    { exists e3, nv', D'. split.
      - rewrite M. cbn [bindR fst snd]. rewrite (rebuild_typed k t l' ts O) by (eapply typeds_type; eauto). cbn [bindR]. rewrite S3. reflexivity.
      - split; auto. split; auto. eapply d_simp; [|exact S3]. now constructor. }
    cbn [optimize].
    destruct (kind_eqb k KEq) eqn:KE; [|destruct (kind_eqb k KImplies) eqn:KI].
    + assert (k = KEq) by (destruct k; try discriminate KE; auto). subst k.
      assert (exists a b, l = [a; b] /\ t = TBool) as (a & b & -> & ->).
      { apply op_cases in O. inversion O; subst; try (cbn in *; intuition discriminate). inversion TL as [|? ? ? ? ? TL2]; subst. inversion TL2 as [|? ? ? ? ? TL3]; subst. inversion TL3; subst. eauto. }
      destruct (eq_drops nv TBool a b GN T0 S) as (o & EO & H). rewrite EO. cbn [bindR]. destruct o as [[e' nv1]|]; [|exact REST].
      destruct H as (D1 & H). eauto.
    + assert (k = KImplies) by (destruct k; try discriminate KI; auto). subst k.
      assert (exists a b, l = [a; b]) as (a & b & ->).
      { apply op_cases in O. inversion O; subst; try (cbn in *; intuition discriminate). inversion TL as [|? ? ? ? ? TL2]; subst. inversion TL2 as [|? ? ? ? ? TL3]; subst. inversion TL3; subst. eauto. }
      cbn [bindR]. rewrite (implies_nothing F G vc NEW QUIET t a b t TV T0 S). cbn [bindR]. exact REST.
    + destruct k; try discriminate KE; try discriminate KI; cbn [bindR]; exact REST.
Qed.
End Opt.

(* ------------------------------------------------------------------ *)
(** * Assignments for the old and the new variables *)

Section Both.
Variables (F : dict (list ty * ty)) (G : string -> option ty) (vc : expr) (I : interp).
Hypothesis NEW : forall i, G (useless_name i) = None.
Hypothesis TV : typed F G vc TBool.
Hypothesis TOT : total F I.
Hypothesis TWO : forall x t, G x = Some t -> plural t = true.

(** the variable of a dropped equation that is used nowhere else, and the other side *)
Definition lone (q : expr) : option (string * expr) :=
  match q with
  | Node KEq _ [a; b] =>
      match var_name a with
      | Some x => if Nat.eqb (occurrences x vc) 1 then Some (x, b) else match var_name b with Some y => Some (y, a) | None => None end
      | None => match var_name b with Some y => Some (y, a) | None => None end
      end
  | _ => None
  end.

Lemma val_neq v w : v <> w -> val_eqb v w = false.
Proof. intros N. destruct (val_eqb v w) eqn:E; auto. apply val_eqb_eq in E. congruence. Qed.

Lemma lone_spec p : lonely F G vc p -> exists x e2 u, lone (fst p) = Some (x, e2) /\ occurrences x vc = 1 /\ G x = Some u /\ typed F G e2 u /\
  (forall y, occurrences y (fst p) = (if String.eqb y x then 1 else 0) + occurrences y e2) /\
  (forall r v w, r x = Some v -> eval I r e2 = Some w -> (v = w -> eval I r (fst p) = Some (VBool true)) /\ (v <> w -> eval I r (fst p) = Some (VBool false))).
Proof.
  intros (t & a & b & x & u & E & AB & O & T). rewrite E in *.
  assert (TT : exists v, typed F G a v /\ typed F G b v).
  { inversion T as [| | | |? ? ts ? OT TL]; subst. apply op_cases in OT. inversion OT; subst; try (cbn in *; intuition discriminate).
    inversion TL as [|? ? ? ? Ta TL']; subst. inversion TL'; subst. eauto. }
  destruct TT as (v & Ta & Tb).
  assert (VAR : forall x u v, typed F G (mkVar x u) v -> G x = Some v).
  { intros x' u' v' H. inversion H as [| | | |? ? ? ? OT]; subst; auto. discriminate OT. }
  assert (LEFT : forall x u, a = mkVar x u -> occurrences x vc = 1 -> lone (Node KEq t [a; b]) = Some (x, b)).
  { intros x' u' -> O'. cbn. now rewrite O'. }
  assert (OC : forall y, occurrences y (Node KEq t [a; b]) = occurrences y a + occurrences y b).
  { intros y. rewrite occ_op by (cbn; tauto). cbn [occs]. lia. }
  assert (ONL : forall x u, a = mkVar x u -> occurrences x vc = 1 -> exists x e2 u, lone (Node KEq t [a; b]) = Some (x, e2) /\ occurrences x vc = 1 /\ G x = Some u /\ typed F G e2 u /\
     (forall y, occurrences y (Node KEq t [a; b]) = (if String.eqb y x then 1 else 0) + occurrences y e2) /\
     (forall r v w, r x = Some v -> eval I r e2 = Some w -> (v = w -> eval I r (Node KEq t [a; b]) = Some (VBool true)) /\ (v <> w -> eval I r (Node KEq t [a; b]) = Some (VBool false)))).
  { intros x' u' Ea O'. exists x', b, v. split; [eapply LEFT; eauto|]. split; auto. subst a. split; [eapply VAR; eauto|]. split; auto. split.
    - intros y. rewrite OC, occ_var. reflexivity.
    - intros r v1 w R W. cbn [eval mapO mkVar]. rewrite R, W. cbn. split; [intros ->; now rewrite val_eqb_refl | intros N; now rewrite val_neq]. }
  destruct AB as [Ea|Eb]; [eapply ONL; eauto|].
  destruct (var_name a) as [z|] eqn:Va; [destruct (Nat.eqb_spec (occurrences z vc) 1) as [OZ|OZ]|].
  - destruct (var_name_plain _ _ (typed_plain F G NEW _ _ Ta) Va) as (uz & Ea). eapply ONL; eauto.
  - exists x, a, v. cbn [lone]. rewrite Va. apply Nat.eqb_neq in OZ. rewrite OZ. subst b. split; [reflexivity|]. split; auto. split; [eapply VAR; eauto|]. split; auto. split.
    + intros y. rewrite OC, occ_var. lia.
    + intros r v1 w R W. cbn [eval mapO mkVar]. rewrite R, W. cbn. split; [intros ->; now rewrite val_eqb_refl | intros N; now rewrite val_neq by congruence].
  - exists x, a, v. cbn [lone]. rewrite Va. subst b. split; [reflexivity|]. split; auto. split; [eapply VAR; eauto|]. split; auto. split.
    + intros y. rewrite OC, occ_var. lia.
    + intros r v1 w R W. cbn [eval mapO mkVar]. rewrite R, W. cbn. split; [intros ->; now rewrite val_eqb_refl | intros N; now rewrite val_neq by congruence].
Qed.

(** another value of the type *)
Definition other (t : ty) (v : val) : val :=
  match t, v with
  | TInt, VInt z => VInt (z + 1)
  | TBool, VBool b => VBool (negb b)
  | TList TInt, VList l => VList (VInt 0 :: l)
  | TList TBool, VList l => VList (VBool true :: l)
  | _, _ => v
  end.
Lemma cons_neq (A : Type) (a : A) l : a :: l <> l.
Proof. intros E. apply (f_equal (@List.length A)) in E. cbn in E. lia. Qed.
Lemma other_spec t v : plural t = true -> of_type t v = true -> of_type t (other t v) = true /\ other t v <> v.
Proof.
  intros P O. destruct t as [| |t| | | | |]; try discriminate P; try (destruct t; try discriminate P); destruct v; try discriminate O; cbn; split; auto.
  - intros [= E]. lia.
  - intros [= E]. now destruct b.
  - intros [= E]. now apply cons_neq in E.
  - intros [= E]. now apply cons_neq in E.
Qed.

Variables (D : list (expr * nat)) (vc' : expr) (n : nat).
Hypothesis DR : drops vc D vc'.
Hypothesis IDX : map snd D = seq 0 n.
Hypothesis LON : Forall (lonely F G vc) D.

Lemma idx_lt q i : In (q, i) D -> i < n.
Proof. intros IN. apply (in_map snd) in IN. rewrite IDX in IN. apply in_seq in IN. cbn in IN. lia. Qed.
Lemma D_kept : kept (with_new G n) D.
Proof. intros q i IN. apply new_get. eapply idx_lt; eauto. Qed.
Lemma D_occ x : docc x D <= occurrences x vc.
Proof. apply (proj1 drops_occ _ _ _ DR). Qed.

Lemma occ_in_docc x p : In p D -> occurrences x (fst p) <= docc x D.
Proof. intros IN. unfold docc. apply occs_in. now apply in_map. Qed.
Lemma one_entry x p p' : In p D -> In p' D -> occurrences x (fst p) > 0 -> occurrences x (fst p') > 0 -> occurrences x vc = 1 -> p = p'.
Proof.
  intros P P' O O' ONE. pose proof (D_occ x) as L. rewrite ONE in L. clear -P P' O O' L.
  induction D as [|d E IH]; [contradiction|]. unfold docc in *. cbn [map occs] in L.
  assert (X : forall q, In q E -> occurrences x (fst q) > 0 -> occs x (map fst E) > 0).
  { intros q IN OQ. pose proof (occs_in x (fst q) (map fst E) (in_map fst _ _ IN)). lia. }
  destruct P as [->|P], P' as [->|P']; auto.
  - specialize (X _ P' O'). lia.
  - specialize (X _ P O). lia.
  - apply IH; auto. lia.
Qed.

Lemma occ_typed y e t : typed F G e t -> occurrences y e > 0 -> exists u, G y = Some u.
Proof.
  revert e t. apply (typed_ind' F G (fun e t => occurrences y e > 0 -> exists u, G y = Some u)).
  - intros x t H. rewrite occ_var. destruct (String.eqb_spec y x) as [->|]; [eauto | lia].
  - cbn. lia.
  - cbn. lia.
  - intros f ts t l _ _ H. rewrite occ_call. induction H; cbn; [lia|]. intros O. destruct (occurrences y x) eqn:Z; [apply IHForall2; lia | apply H; lia].
  - intros k l ts t O _ H. rewrite (occ_op _ _ _ _ (op_kind _ _ _ O)). clear O. induction H; cbn; [lia|]. intros O. destruct (occurrences y x) eqn:Z; [apply IHForall2; lia | apply H; lia].
Qed.

(** new variables from the old ones *)
Section Forward.
Variable r : env.
Hypothesis FIT : suits G r.
Definition forward : env := fun x =>
  match useless_index x with
  | Some i => match nth_error D i with Some (q, _) => eval I r q | None => r x end
  | None => r x
  end.
Lemma nth_idx i : i < n -> exists q, nth_error D i = Some (q, i) /\ In (q, i) D.
Proof.
  intros L. assert (E : nth_error (map snd D) i = Some i). { rewrite IDX. rewrite (nth_error_nth' _ 0) by (rewrite seq_length; lia). now rewrite seq_nth. }
  rewrite nth_error_map in E. destruct (nth_error D i) as [[q j]|] eqn:N; [|discriminate E]. cbn in E. injection E as ->. exists q. split; auto. eapply nth_error_In; eauto.
Qed.
Lemma entry_typed q i : In (q, i) D -> typed F G q TBool.
Proof. intros IN. rewrite Forall_forall in LON. destruct (LON _ IN) as (? & ? & ? & ? & ? & _ & _ & _ & T). exact T. Qed.
Lemma forward_new q i : In (q, i) D -> forward (useless_name i) = eval I r q.
Proof.
  intros IN. unfold forward. rewrite useless_index_name. destruct (nth_idx i (idx_lt _ _ IN)) as (q' & N & IN'). rewrite N.
  assert (NoDup (map snd D)) by (rewrite IDX; apply seq_NoDup).
  assert (q = q'); [|congruence]. clear -IN IN' H. induction D as [|[p j] E IH]; [contradiction|]. cbn in H. inversion H as [|? ? NI ND]; subst.
  destruct IN as [X|IN], IN' as [X'|IN']; auto; [congruence | | ]; exfalso; apply NI; [injection X as _ -> | injection X' as _ ->]; [exact (in_map snd _ _ IN') | exact (in_map snd _ _ IN)].
Qed.
Lemma forward_old x t : G x = Some t -> forward x = r x.
Proof. intros H. unfold forward. destruct (useless_index x) as [i|] eqn:U; auto. apply useless_index_some in U. subst. rewrite NEW in H. discriminate. Qed.
Lemma forward_fits : suits (with_new G n) forward.
Proof.
  intros x t H. apply (new_inv G) in H as [(i & L & -> & ->)|H].
  - destruct (nth_idx i L) as (q & _ & IN). rewrite (forward_new _ _ IN). eapply typed_value; eauto. eapply entry_typed; eauto.
  - rewrite (forward_old _ _ H). auto.
Qed.
Lemma forward_value : eval I forward vc' = eval I r vc.
Proof.
  eapply (drops_sem F G I TOT r forward (with_new G n) FIT forward_fits (typed_new F G NEW n)); eauto using D_kept.
  - intros q i IN. symmetry. now apply forward_new.
  - intros y O. destruct (occ_typed y vc TBool TV) as (u & U); [lia|]. symmetry. eapply forward_old; eauto.
Qed.
End Forward.

(** old variables from the new ones *)
Section Backward.
Variable r' : env.
Hypothesis FIT : suits (with_new G n) r'.
Definition is_lone (y : string) (p : expr * nat) : bool := match lone (fst p) with Some (x, _) => String.eqb x y | None => false end.
Definition backward : env := fun y =>
  match find (is_lone y) D, G y with
  | Some (q, i), Some t =>
      match lone q, r' (useless_name i) with
      | Some (_, e2), Some (VBool b) => match eval I r' e2 with Some v => Some (if b then v else other t v) | None => r' y end
      | _, _ => r' y
      end
  | _, _ => r' y
  end.
Lemma fit_old : suits G r'.
Proof. intros x t H. apply FIT. now apply new_old. Qed.
Lemma find_lone y p : find (is_lone y) D = Some p -> In p D /\ occurrences y (fst p) > 0 /\ occurrences y vc = 1 /\ exists e, lone (fst p) = Some (y, e).
Proof.
  intros H. apply find_some in H as [IN L]. split; auto. unfold is_lone in L. rewrite Forall_forall in LON.
  destruct (lone_spec p (LON p IN)) as (x & e2 & u & E & O & _ & _ & OC & _). rewrite E in L. apply String.eqb_eq in L. subst x.
  repeat split; eauto. rewrite OC, String.eqb_refl. lia.
Qed.
Lemma backward_kept y : docc y D < occurrences y vc -> backward y = r' y.
Proof.
  intros L. unfold backward. destruct (find (is_lone y) D) as [p|] eqn:E; auto. apply find_lone in E as (IN & O & ONE & _). pose proof (occ_in_docc y p IN). lia.
Qed.
Lemma backward_entry q i : In (q, i) D -> exists x e2 u v b, lone q = Some (x, e2) /\ G x = Some u /\ r' (useless_name i) = Some (VBool b) /\ of_type u v = true /\
  eval I backward e2 = Some v /\ backward x = Some (if b then v else other u v) /\ eval I backward q = Some (VBool b).
Proof.
  intros IN. pose proof LON as LON'. rewrite Forall_forall in LON'. destruct (lone_spec _ (LON' _ IN)) as (x & e2 & u & E & O & GX & TE & OC & EV). cbn [fst] in *.
  destruct (FIT (useless_name i) TBool (new_get G n i (idx_lt _ _ IN))) as (vb & RB & OB). destruct vb as [|b| | |]; try discriminate OB.
  destruct (typed_value F G I r' TOT fit_old e2 u TE) as (v & V & OV).
  assert (FX : find (is_lone x) D = Some (q, i)).
  { destruct (find (is_lone x) D) as [p|] eqn:FD.
    - apply find_lone in FD as (INP & OP & _). f_equal. eapply one_entry; eauto. cbn [fst]. rewrite OC, String.eqb_refl. lia.
    - exfalso. apply (find_none _ _ FD) in IN. unfold is_lone in IN. cbn [fst] in IN. rewrite E, String.eqb_refl in IN. discriminate. }
  assert (BX : backward x = Some (if b then v else other u v)).
  { unfold backward. now rewrite FX, GX, E, RB, V. }
  assert (BE : eval I backward e2 = Some v).
  { rewrite <- V. eapply typed_agree; [exact TE|]. intros y OY. unfold backward at 1. destruct (find (is_lone y) D) as [p|] eqn:FD; auto.
    exfalso. apply find_lone in FD as (INP & OP & ONE & e0 & LY). assert (OQ : occurrences y q > 0) by (rewrite OC; lia).
    assert (p = (q, i)) by (eapply one_entry; eauto).
    pose proof (occ_in_docc y _ IN) as L1. cbn [fst] in L1. pose proof (D_occ y) as L2.
    assert (y = x) by (subst p; cbn [fst] in LY; congruence).
    subst y. rewrite OC, String.eqb_refl in L1. lia. }
  exists x, e2, u, v, b. repeat split; auto. destruct (EV backward _ _ BX BE) as [T1 T2]. destruct (other_spec u v (TWO _ _ GX) OV) as [_ NE]. destruct b; auto.
Qed.
Lemma backward_fits : suits G backward.
Proof.
  intros y t H. destruct (find (is_lone y) D) as [[q i]|] eqn:FD.
  - apply find_lone in FD as (IN & _ & _ & e0 & LY). destruct (backward_entry q i IN) as (x & e2 & u & v & b & E & GX & _ & OV & _ & BX & _).
    cbn [fst] in LY. rewrite E in LY. injection LY as -> ->. rewrite H in GX. injection GX as <-. rewrite BX. eexists. split; [reflexivity|].
    destruct (other_spec t v (TWO _ _ H) OV). destruct b; auto.
  - unfold backward. rewrite FD. apply fit_old. exact H.
Qed.
Lemma backward_value : eval I r' vc' = eval I backward vc.
Proof.
  eapply (drops_sem F G I TOT backward r' (with_new G n) backward_fits FIT (typed_new F G NEW n)); eauto using D_kept, backward_kept.
  intros q i IN. destruct (backward_entry q i IN) as (x & e2 & u & v & b & _ & _ & RB & _ & _ & _ & EQ). congruence.
Qed.
End Backward.
End Both.

Theorem optimize_equivalent F G I vc fuel : total F I -> typed F G vc TBool -> (forall i, G (useless_name i) = None) ->
  (forall x t, G x = Some t -> plural t = true) -> quiet vc -> size vc <= fuel ->
  exists vc' nv, optimize_vc fuel vc [] = Ok (vc', nv) /\ nv = map (fun i => mkVar (useless_name i) TBool) (seq 0 (List.length nv)) /\
    typed F (with_new G (List.length nv)) vc' TBool /\
    (true_for_all G I vc <-> true_for_all (with_new G (List.length nv)) I vc').
Proof.
  intros TOT TV NEW TWO QUIET SZ.
  destruct (optimize_drops F G vc NEW QUIET TV fuel vc TBool [] TV (sub_refl vc) SZ eq_refl) as (vc' & nv & D & E & GN & DR & IDX & _ & LON).
  cbn [List.length] in IDX. rewrite PeanoNat.Nat.sub_0_r in IDX.
  exists vc', nv. split; [exact E|]. split; [exact GN|]. split.
  { eapply (drops_typed F G _ (typed_new F G NEW _)); eauto. eapply D_kept; eauto. }
  split; intros V r FIT.
  - rewrite (backward_value F G vc I NEW TV TOT TWO D vc' _ DR IDX LON r FIT). apply V. eapply backward_fits; eauto.
  - rewrite <- (forward_value F G vc I NEW TV TOT D vc' _ DR IDX LON r FIT). apply V. eapply forward_fits; eauto.
Qed.
