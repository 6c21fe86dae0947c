(** Proofs about metalift/vc.py, part 4: the formula of a block, and the worklist. *)

From Coq Require Import String List ZArith Bool Lia.
From Verif Require Import Ast Semantics Dict IrProofs OptProofs2 UtilProofs PySem PyProofs PyProofs2 PyProofs3 LlModel VcModel VcSem VcProofs1 VcProofs2 VcProofs3.
Import ListNotations.
Local Open Scope list_scope.

Section Form.
Variables (I : interp) (G : sigs) (fn : string) (io : ty -> bool) (args : list (string * ty)) (asg bnames hvs : list string).
Hypothesis RESP : respects I G.
Hypothesis NAMES : NoDup (map fst args ++ asg ++ bnames).
Hypothesis FRESH : forall x p n, In x (map fst args ++ asg ++ bnames) -> In p hvs -> x <> (p ++ "_" ++ string_of_nat n)%string.
Notation typed := (typed G).
Notation okstate := (okstate G).
Notation tru := (tru I).
Notation fulln := (full fn).
Notation cls := (cls G fn args asg bnames hvs).
Notation glob_ok := (glob_ok G fn args asg bnames hvs).
Notation used := (used fn asg bnames).
Notation okwalk := (okwalk G fn args asg bnames hvs).

(** all declared variables *)
Definition allv (g : vglob) : list (string * ty) :=
  flat_map (fun v => match v with Node _ t [Atom (PStr x)] => [(x, t)] | _ => [] end) (q_vars g).
Lemma allv_in g x t : glob_ok g -> (In (x, t) (allv g) <-> In (mkVar x t) (q_vars g)).
Proof.
  intros [F _]. unfold allv. rewrite in_flat_map. split.
  - intros (v & IN & H). rewrite Forall_forall in F. destruct (F v IN) as (y & u & -> & _). destruct H as [[= -> ->]|[]]. auto.
  - intros IN. exists (mkVar x t). split; auto. now left.
Qed.
Lemma used_all g : incl (used g) (allv g).
Proof.
  intros [x t] IN. unfold VcProofs3.used, allv in *. apply in_flat_map in IN as (v & IN & H). apply in_flat_map. exists v. split; auto.
  repeat match type of H with In _ (match ?x with _ => _ end) => destruct x; try (now destruct H) end. exact H.
Qed.
Lemma ext_all g g' : ext g g' -> incl (allv g) (allv g').
Proof. intros [[l E] _]. unfold allv. rewrite E, flat_map_app. apply incl_appl, incl_refl. Qed.
Lemma fits_all g r : glob_ok g -> (fits_vars (q_vars g) r <-> fit (allv g) r).
Proof. intros GO. split; intros H x t IN; apply H; apply allv_in; auto. Qed.

Definition otyped (U : list (string * ty)) (o : option expr) : Prop := match o with Some e => typed U e TBool | None => True end.
Definition otru (r : env) (o : option expr) : Prop := match o with Some e => tru r e | None => True end.

Lemma conj_ok U l o : conj l = Ok o -> Forall (fun e => typed U e TBool) l ->
  otyped U o /\ (forall r, fit U r -> (otru r o <-> Forall (tru r) l)) /\ (o = None <-> l = []).
Proof.
  intros H F. destruct l as [|e l]; cbn [conj] in H.
  - injection H as <-. cbn. split; auto. split; [intros; split; auto; constructor | tauto].
  - ok H f E. injection H as <-. destruct (nary_and I G RESP U _ _ E F) as [A B]. cbn [otyped otru]. split; auto. split; auto. split; discriminate.
Qed.
Lemma both_ok U a b o : both a b = Ok o -> otyped U a -> otyped U b ->
  otyped U o /\ (forall r, fit U r -> (otru r o <-> otru r a /\ otru r b)) /\ (o = None <-> a = None /\ b = None).
Proof.
  intros H A B. destruct a as [e|], b as [f|]; cbn [both] in H.
  - ok H g E. injection H as <-. apply mkBoolN_is in E as [_ ->]. cbn [otyped otru].
    assert (FT : Forall (fun e => typed U e TBool) [e; f]) by auto.
    split; [apply typed_andor; auto; discriminate|]. split; [|split; [discriminate | intros [? _]; discriminate]].
    intros r FIT. assert (NE : [e; f] <> []) by discriminate. rewrite (and_tru I G RESP U r _ FIT NE FT). rewrite !Forall_cons_iff. intuition.
  - injection H as <-. cbn in *. split; auto. split; [intros; tauto | split; [discriminate | intros [? _]; discriminate]].
  - injection H as <-. cbn in *. split; auto. split; [intros; tauto | split; [discriminate | intros [_ ?]; discriminate]].
  - injection H as <-. cbn in *. split; auto. split; [intros; tauto | tauto].
Qed.

Lemma insert_in A x (a : A) l p : In p (insert_by x a l) <-> p = (x, a) \/ In p l.
Proof.
  induction l as [|[y b] l IH]; cbn; [intuition|]. destruct (String.compare x y); cbn; try rewrite IH; intuition.
Qed.
Lemma sort_in A (l : list (string * A)) p : In p (sort_by l) <-> In p l.
Proof. induction l as [|[x a] l IH]; cbn; [tauto|]. rewrite insert_in, IH. intuition. Qed.

(** vc.py:255-265: the equations *)
Lemma assign_eqs_ok : forall l g regs es g', assign_eqs fn io g regs l = Ok (es, g') -> glob_ok g ->
  (forall x t, In (x, t) l -> In x asg /\ dget (g_regs G) x = Some t /\ exists e, dget regs x = Some e /\ typed (used g) e t) ->
  glob_ok g' /\ ext g g' /\ Forall (fun e => typed (allv g') e TBool) es /\
  (forall r, fit (allv g') r -> (Forall (tru r) es <-> forall x t e, In (x, t) l -> dget regs x = Some e -> r (fulln x) = eval I r e)).
Proof.
  induction l as [|[x t] l IH]; intros g regs es g' H GO IN; cbn [assign_eqs] in H.
  - injection H as <- <-. split; auto. split; [apply ext_refl|]. split; auto. intros r _. split; [intros _ x t e [] | constructor].
  - ok H p E. destruct p as [v g1]. cbn [fst snd] in *. destruct (IN x t (or_introl eq_refl)) as (IA & TX & e & D & TE). rewrite D in H.
    ok H q Q. ok H rest R. injection H as <- <-. destruct rest as [es' g2]. cbn [fst snd] in *. injection Q as <-.
    assert (C : cls (q_num g) (fulln x) t) by (right; left; eauto).
    destruct (make_var_ok G fn io args asg bnames hvs _ _ _ _ _ E GO C) as (-> & GO1 & X1 & _ & IN1). cbn [ty_of_arg] in *.
    destruct (IH _ _ _ _ R GO1) as (GO2 & X2 & F2 & S2).
    { intros y u Y. destruct (IN y u (or_intror Y)) as (A1 & A2 & e1 & A3 & A4). split; auto. split; auto. exists e1. split; auto.
      eapply typed_incl; [apply ext_used; exact X1 | exact A4]. }
    assert (TV : typed (allv g2) (mkVar (fulln x) t) t) by (constructor; apply (ext_all _ _ X2), allv_in; auto).
    assert (TE2 : typed (allv g2) e t).
    { eapply typed_incl; [|exact TE]. intros q Q. apply (ext_all _ _ X2), (ext_all _ _ X1), used_all, Q. }
    assert (GO2' := GO2). split; auto. split; [eapply ext_trans; eauto|]. split; [constructor; auto; eapply t_eq; eauto|].
    intros r FIT. rewrite Forall_cons_iff, (S2 r FIT).
    assert (TR : tru r (Node KEq TBool [mkVar (fulln x) t; e]) <-> r (fulln x) = eval I r e).
    { destruct (typed_eval I G RESP _ r _ _ FIT TV) as (w & W & _). destruct (typed_eval I G RESP _ r _ _ FIT TE2) as (w' & W' & _).
      unfold VcProofs2.tru. cbn [eval mapO]. cbn in W. cbn. rewrite W, W'. cbn. split.
      - intros [= Q]. apply val_eqb_eq in Q. now subst.
      - intros [= ->]. now rewrite val_eqb_refl. }
    rewrite TR. split.
    + intros [A B] y u e' [[= <- <-]|Y] D'; [congruence | eauto].
    + intros A. split; [apply (A x t e); auto; now left|]. intros y u e' Y. apply (A y u e'). now right.
Qed.

Lemma dget_in_pair (d : dict ty) x t : NoDup (dkeys d) -> (In (x, t) d <-> dget d x = Some t).
Proof. intros N. split; [now apply nodup_dget | apply PyProofs3.dget_in]. Qed.

(** vc.py:245-311 *)
Lemma form_vc_ok z b succs e g' : form_vc fn io (z_glob z) b (w_regs (z_st z)) (z_assigns z) (w_assumes (z_st z)) (z_asserts z) succs = Ok (e, g') ->
  okwalk z -> In b bnames -> incl succs bnames ->
  glob_ok g' /\ ext (z_glob z) g' /\ typed (allv g') e TBool /\ In (mkVar (fulln b) TBool) (q_vars g') /\
  (forall r, fit (allv g') r -> (tru r e <->
     (r (fulln b) = Some (VBool true) <->
      ((forall x e, dget (z_assigns z) x <> None -> dget (w_regs (z_st z)) x = Some e -> r (fulln x) = eval I r e) -> Forall (tru r) (w_assumes (z_st z)) ->
       (forall c, In c succs -> r (fulln c) = Some (VBool true)) /\ Forall (tru r) (z_asserts z))))).
Proof.
  intros H OW IB IS. destruct OW as [GO OS AS ND AG]. unfold form_vc in H. ok H a A. ok H assignE A1. ok H assumeE A2. ok H lhs A3. ok H sv A4. ok H succE A5. ok H assertE A6. ok H rhs A7. ok H v A8.
  destruct a as [es g1], sv as [ss g2], v as [v g3]. cbn [fst snd] in *.
  destruct (assign_eqs_ok _ _ _ _ _ A GO) as (GO1 & X1 & F1 & S1).
  { intros x t IN. apply (proj1 (sort_in _ _ _)) in IN. apply dget_in_pair in IN; auto. destruct (AG x t IN) as (B1 & B2 & e0 & B3). split; auto. split; auto.
    exists e0. split; auto. eapply okdict_get; eauto. apply OS. }
  destruct (make_vars_ok G fn io args asg bnames hvs _ _ _ _ A4 GO1) as (-> & GO2 & X2 & N2 & IN2).
  { rewrite Forall_forall. intros p IN. apply in_map_iff in IN as (c & <- & IN). right; right; left. exists c. cbn. auto. }
  assert (C3 : cls (q_num g2) (fulln b) TBool) by (right; right; left; eauto).
  destruct (make_var_ok G fn io args asg bnames hvs _ _ _ _ _ A8 GO2 C3) as (-> & GO3 & X3 & N3 & IN3). cbn [ty_of_arg] in *.
  assert (X13 : ext g1 g3) by (eapply ext_trans; eauto). assert (X03 : ext (z_glob z) g3) by (eapply ext_trans; eauto).
  set (U := allv g3).
  assert (TU : forall e0 t, typed (used (z_glob z)) e0 t -> typed U e0 t).
  { intros e0 t. apply typed_incl. intros q Q. apply (ext_all _ _ X03), used_all, Q. }
  assert (F1' : Forall (fun e => typed U e TBool) es) by (revert F1; apply Forall_impl; intros e0; apply typed_incl, ext_all, X13).
  destruct (conj_ok U _ _ A1 F1') as (T1 & R1 & NN1).
  assert (FA : Forall (fun e => typed U e TBool) (w_assumes (z_st z))) by (generalize (ok_ass _ _ _ OS); apply Forall_impl; intros e0; apply TU).
  destruct (conj_ok U _ _ A2 FA) as (T2 & R2 & NN2).
  destruct (both_ok U _ _ _ A3 T1 T2) as (T3 & R3 & NN3).
  assert (FS : Forall (fun e => typed U e TBool) (map (fun p : string * tyarg => mkVar (fulln (fst p)) (ty_of_arg (snd p))) (map (fun c => (c, IrClass TBool)) succs))).
  { rewrite Forall_forall. intros q Q. pose proof (ext_vars _ _ X3 _ (IN2 _ Q)) as Q'. apply in_map_iff in Q as (p & <- & Q). apply in_map_iff in Q as (c & <- & _).
    cbn [fst snd ty_of_arg] in *. constructor. apply allv_in; auto. }
  destruct (conj_ok U _ _ A5 FS) as (T5 & R5 & _).
  assert (FR : Forall (fun e => typed U e TBool) (z_asserts z)) by (revert AS; apply Forall_impl; intros e0; apply TU).
  destruct (conj_ok U _ _ A6 FR) as (T6 & R6 & _).
  destruct (both_ok U _ _ _ A7 T5 T6) as (T7 & R7 & _).
  destruct lhs as [l|]; [|exfalso; destruct (proj1 NN3 eq_refl) as [_ Y]; apply NN2 in Y; now apply (ok_ne _ _ _ OS)].
  ok H i A9. cbn [mkImplies] in A9. ok A9 u A10. injection A9 as <-. cbn in H. injection H as <- <-. cbn [otyped] in T3.
  destruct rhs as [rr|]; [|cbn in A10; rewrite (typed_type_of G _ _ _ T3) in A10; cbn in A10; discriminate]. cbn [otyped] in T7.
  assert (TI : typed U (Node KImplies TBool [l; rr]) TBool) by (constructor; auto).
  assert (TV : typed U (mkVar (fulln b) TBool) TBool) by (constructor; apply allv_in; auto).
  split; auto. split; auto. split; [eapply t_eq; eauto|]. split; auto.
  intros r FIT. fold U in FIT.
  destruct (typed_bool I G RESP U r _ FIT T3) as (bl & BL). destruct (typed_bool I G RESP U r _ FIT T7) as (br & BR).
  destruct (typed_bool I G RESP U r _ FIT TV) as (bv & BV). cbn in BV.
  assert (LT : tru r l <-> bl = true) by (unfold VcProofs2.tru; rewrite BL; split; congruence).
  assert (RT : tru r rr <-> br = true) by (unfold VcProofs2.tru; rewrite BR; split; congruence).
  assert (VT : r (fulln b) = Some (VBool true) <-> bv = true) by (rewrite BV; split; congruence).
  assert (ET : tru r (Node KEq TBool [mkVar (fulln b) TBool; Node KImplies TBool [l; rr]]) <-> bv = implb bl br).
  { unfold VcProofs2.tru. cbn. rewrite BV, BL, BR. cbn. split; [intros [= Q]; now apply eqb_prop in Q | intros ->; now rewrite eqb_reflx]. }
  rewrite ET, VT.
  assert (LL : bl = true <-> (forall x e, dget (z_assigns z) x <> None -> dget (w_regs (z_st z)) x = Some e -> r (fulln x) = eval I r e) /\ Forall (tru r) (w_assumes (z_st z))).
  { rewrite <- LT. change (tru r l) with (otru r (Some l)). rewrite (R3 r FIT), (R1 r FIT), (R2 r FIT).
    rewrite (S1 r); [|intros x t Q; apply FIT, (ext_all _ _ X13), Q]. split; intros [P Q]; split; auto.
    - intros x e0 D1 D2. destruct (dget (z_assigns z) x) as [t|] eqn:D; [|congruence]. apply (P x t e0); auto. apply sort_in. now apply PyProofs3.dget_in.
    - intros x t e0 D1 D2. apply P; auto. apply (proj1 (sort_in _ _ _)) in D1. apply dget_in_pair in D1; auto. congruence. }
  assert (RR : br = true <-> (forall c, In c succs -> r (fulln c) = Some (VBool true)) /\ Forall (tru r) (z_asserts z)).
  { rewrite <- RT. change (tru r rr) with (otru r (Some rr)). rewrite (R7 r FIT), (R5 r FIT), (R6 r FIT). rewrite map_map, Forall_map, Forall_forall. cbn. tauto. }
  destruct bl, br, bv; cbn; intuition; congruence.
Qed.
End Form.
