(** Proofs about metalift/vc.py, part 5: what the worklist leaves behind. *)

From Coq Require Import String List ZArith Bool Lia.
From Verif Require Import Ast Semantics Dict IrProofs OptProofs2 UtilProofs PySem PyProofs PyProofs2 PyProofs3 LlModel VcModel VcSem VcProofs1 VcProofs2 VcProofs3 VcProofs4.
Import ListNotations.
Local Open Scope list_scope.

Section Work.
Variables (I : interp) (G : sigs) (fn : string) (io : ty -> bool) (K : string -> known).
Variables (bs : list vblock) (first : string) (args : list (string * ty)).
Hypothesis RESP : respects I G.
Hypothesis WF : wf_graph G K bs first args.
Notation asg := (flat_map assigned bs).
Notation bnames := (map k_name bs).
Notation hvs := (flat_map havocs bs).
Notation typed := (typed G).
Notation okstate := (okstate G).
Notation tru := (tru I).
Notation path := (path I).
Notation link := (link I).
Notation fulln := (full fn).
Notation cls := (cls G fn args asg bnames hvs).
Notation glob_ok := (glob_ok G fn args asg bnames hvs).
Notation used := (used fn asg bnames).
Notation okwalk := (okwalk G fn args asg bnames hvs).
Notation NAMES := (wg_names _ _ _ _ _ WF).
Notation FRESH := (wg_fresh _ _ _ _ _ WF).

Lemma nodup_app_r A (l l' : list A) : NoDup (l ++ l') -> NoDup l'.
Proof. induction l as [|a l IH]; cbn; auto. intros N. inversion N; subst. auto. Qed.
Lemma nodup_map_inj A B (f : A -> B) l a b : NoDup (map f l) -> In a l -> In b l -> f a = f b -> a = b.
Proof.
  induction l as [|c l IH]; cbn; [tauto|]. intros N IA IB E. inversion N as [|? ? NI N']; subst.
  destruct IA as [<-|IA], IB as [<-|IB]; auto; exfalso; apply NI; [rewrite E | rewrite <- E]; now apply in_map.
Qed.
Lemma by_name b c : In b bs -> In c bs -> k_name b = k_name c -> b = c.
Proof. intros B C. apply nodup_map_inj with (f := k_name) (l := bs); auto. eapply nodup_app_r, nodup_app_r, NAMES. Qed.
Lemma block_of x : In x bnames -> exists b, In b bs /\ k_name b = x.
Proof. intros IN. apply in_map_iff in IN as (b & A & B). eauto. Qed.
Lemma in_assigned b : In b bs -> incl (assigned_all (k_instrs b)) asg.
Proof. intros B x X. apply in_flat_map. exists b. auto. Qed.
Lemma in_havocs b : In b bs -> incl (havocs_all (k_instrs b)) hvs.
Proof. intros B x X. apply in_flat_map. exists b. auto. Qed.

Variable e0 : vstate.

Definition start (d : dict vstate) (b : vblock) (s0 : vstate) : Prop :=
  match k_preds b with [] => s0 = e0 | ps => merge_vstates (map (vst d) ps) = Ok s0 end.

(** a block that has been computed *)
Record info (g : vglob) (d : dict vstate) (b : vblock) (g1 : vglob) (s0 : vstate) (z : walk) (f : expr * vglob) : Prop := {
  in_start : start d b s0;
  in_glob : glob_ok g1;
  in_state : okstate (used g1) s0;
  in_steps : vsteps fn io (k_instrs b) {| z_glob := g1; z_st := s0; z_assigns := []; z_asserts := [] |} = Ok z;
  in_form : form_vc fn io (z_glob z) (k_name b) (w_regs (z_st z)) (z_assigns z) (w_assumes (z_st z)) (z_asserts z) (k_succs b) = Ok f;
  in_ext : ext (snd f) g;
  in_vst : vst d (k_name b) = set_vc (z_st z) (fst f) }.

Record ranked (L : list vblock) (rank : string -> nat) : Prop := {
  rk_bound : forall b, In b L -> (rank (k_name b) < length L)%nat;
  rk_inj : forall b c, In b L -> In c L -> rank (k_name b) = rank (k_name c) -> k_name b = k_name c;
  rk_preds : forall b p, In b L -> In p (k_preds b) -> In p (map k_name L) /\ (rank p < rank (k_name b))%nat }.

Record Inv (L : list vblock) (g : vglob) (d : dict vstate) : Prop := {
  iv_glob : glob_ok g;
  iv_sub : incl L bs;
  iv_done : forall b, In b bs -> (has_vc d (k_name b) = true <-> In b L);
  iv_info : forall b, In b L -> exists g1 s0 z f, info g d b g1 s0 z f;
  iv_init : ~ In first (map k_name L) -> vst d first = e0;
  iv_e0 : okstate (used g) e0;
  iv_rank : exists rank, ranked L rank }.

Lemma okwalk_start g s : glob_ok g -> okstate (used g) s -> okwalk {| z_glob := g; z_st := s; z_assigns := []; z_asserts := [] |}.
Proof. intros A B. constructor; cbn; auto. constructor. discriminate. Qed.

Lemma info_walk g d b g1 s0 z f : In b bs -> info g d b g1 s0 z f ->
  okwalk z /\ ext g1 (z_glob z) /\ glob_ok (snd f) /\ ext (z_glob z) (snd f) /\
  (exists l, w_assumes (z_st z) = w_assumes s0 ++ l) /\ typed (allv (snd f)) (fst f) TBool /\
  In (mkVar (fulln (k_name b)) TBool) (q_vars (snd f)).
Proof.
  intros B H. destruct (wg_block _ _ _ _ _ WF b B) as (_ & k & O & _).
  pose proof (okwalk_start _ _ (in_glob _ _ _ _ _ _ _ H) (in_state _ _ _ _ _ _ _ H)) as OW.
  destruct (vsteps_ok G fn io args asg bnames hvs FRESH _ _ _ _ _ O (in_steps _ _ _ _ _ _ _ H) OW (in_assigned b B) (in_havocs b B)) as (OW' & X & (l & A & _) & _).
  destruct f as [e g'].
  destruct (form_vc_ok I G fn io args asg bnames hvs RESP _ _ _ _ _ (in_form _ _ _ _ _ _ _ H) OW') as (GO & X' & T & V & _).
  { now apply in_map. }
  { intros x S. apply (wg_closed _ _ _ _ _ WF b x B). auto. }
  cbn [z_st z_glob fst snd] in *. split; auto. split; auto. split; auto. split; auto. split; eauto.
Qed.

Lemma okstate_vc U s v : okstate U s -> okstate U (set_vc s v).
Proof. intros [A B C D]. constructor; auto. Qed.

Lemma info_okstate g d b g1 s0 z f : In b bs -> info g d b g1 s0 z f -> okstate (used g) (vst d (k_name b)).
Proof.
  intros B H. destruct (info_walk _ _ _ _ _ _ _ B H) as (OW & _ & _ & X & _). rewrite (in_vst _ _ _ _ _ _ _ H). apply okstate_vc.
  eapply okstate_incl; [|apply OW]. apply ext_used. eapply ext_trans; [exact X | apply H].
Qed.

Lemma vst_dset d x s y : vst (dset d x s) y = if String.eqb y x then s else vst d y.
Proof. unfold vst. rewrite dget_dset. now destruct (String.eqb y x). Qed.

Lemma compute_inv L g d b g' d' : Inv L g d -> In b bs -> vready d b = true -> compute fn io b (g, d) = Ok (g', d') ->
  Inv (b :: L) g' d' /\ ext g g'.
Proof.
  intros V B R C. unfold vready in R. apply andb_true_iff in R as [R1 R2]. apply negb_true_iff in R1.
  assert (NL : ~ In b L) by (intros X; apply (iv_done _ _ _ V) in X; congruence).
  assert (NL' : ~ In (k_name b) (map k_name L)).
  { intros X. apply in_map_iff in X as (c & E & X). apply NL. now rewrite <- (by_name c b (iv_sub _ _ _ V _ X) B E). }
  assert (PL : forall p, In p (k_preds b) -> exists c, In c L /\ k_name c = p).
  { intros p P. destruct (block_of p) as (c & CB & <-); [apply (wg_closed _ _ _ _ _ WF b p B); auto|]. exists c. split; auto.
    apply (iv_done _ _ _ V); auto. rewrite forallb_forall in R2. auto. }
  unfold compute in C. cbn [fst snd] in C. ok C s S1. ok C z S2. ok C f S3. injection C as <- <-.
  assert (ST : start d b s).
  { unfold start. destruct (k_preds b) as [|p ps] eqn:P; [|exact S1]. injection S1 as <-.
    destruct (string_dec (k_name b) first) as [E|E]; [|exfalso; apply (wg_preds _ _ _ _ _ WF b B E P)]. rewrite E. apply (iv_init _ _ _ V). now rewrite <- E. }
  assert (OS : okstate (used g) s).
  { unfold start in ST. destruct (k_preds b) as [|p ps] eqn:P; [subst; apply V|].
    destruct (merge_vstates_ok I G RESP (used g) _ _ ST) as (A & _); auto; [apply (used_nodup G fn args asg bnames hvs NAMES FRESH), V|].
    rewrite Forall_forall. intros q Q. apply in_map_iff in Q as (x & <- & Q). destruct (PL x Q) as (c & CL & <-).
    destruct (iv_info _ _ _ V c CL) as (g1 & s1 & z1 & f1 & H). eapply info_okstate; eauto. apply (iv_sub _ _ _ V), CL. }
  set (d' := dset d (k_name b) (set_vc (z_st z) (fst f))).
  assert (VK : forall x, In x (map k_name L) -> vst d' x = vst d x).
  { intros x X. unfold d'. rewrite vst_dset. destruct (String.eqb_spec x (k_name b)) as [->|]; [contradiction | auto]. }
  assert (VM : forall ps, incl ps (map k_name L) -> map (vst d') ps = map (vst d) ps).
  { intros ps P. apply map_ext_in. intros x X. apply VK, P, X. }
  assert (IB : info (snd f) d' b g s z f).
  { constructor; auto; [|apply V | apply ext_refl | unfold d'; now rewrite vst_dset, String.eqb_refl].
    unfold start in *. destruct (k_preds b) as [|p ps]; auto. rewrite VM; auto. intros x X. destruct (PL x X) as (c & CL & <-). now apply in_map. }
  destruct (info_walk _ _ _ _ _ _ _ B IB) as (OW & X1 & GO & X2 & _).
  assert (X : ext g (snd f)) by (eapply ext_trans; eauto). split; [|exact X].
  destruct (iv_rank _ _ _ V) as (rank & RK). constructor; auto.
  - intros c [<-|CL]; auto. apply (iv_sub _ _ _ V), CL.
  - intros c CB. unfold has_vc. unfold d'. rewrite vst_dset. destruct (String.eqb_spec (k_name c) (k_name b)) as [E|NE].
    + rewrite (by_name c b CB B E). cbn. split; auto.
    + change (has_vc d (k_name c) = true <-> In c (b :: L)). rewrite (iv_done _ _ _ V c CB). cbn. intuition congruence.
  - intros c [<-|CL]; [eauto|]. destruct (iv_info _ _ _ V c CL) as (g1 & s1 & z1 & f1 & [A1 A2 A3 A4 A5 A6 A7]).
    exists g1, s1, z1, f1. constructor; auto; [|eapply ext_trans; eauto|].
    + unfold start in *. destruct (k_preds c) as [|p ps] eqn:P; auto. rewrite VM; auto. intros x XP.
      apply (rk_preds _ _ RK c x CL). now rewrite P.
    + rewrite VK; auto. now apply in_map.
  - intros NF. unfold d'. rewrite vst_dset. cbn in NF. destruct (String.eqb_spec first (k_name b)) as [E|]; [exfalso; apply NF; now left|].
    apply (iv_init _ _ _ V). tauto.
  - eapply okstate_incl; [apply ext_used; exact X | apply V].
  - exists (fun x => if String.eqb x (k_name b) then length L else rank x).
    assert (NB : forall x, In x (map k_name L) -> String.eqb x (k_name b) = false).
    { intros x XL. destruct (String.eqb_spec x (k_name b)) as [->|]; [contradiction | auto]. }
    constructor.
    + intros c [<-|CL]; cbn; [rewrite String.eqb_refl; lia|]. rewrite NB by (now apply in_map). pose proof (rk_bound _ _ RK c CL). lia.
    + intros c c' [<-|CL] [<-|CL']; auto.
      * rewrite String.eqb_refl, NB by (now apply in_map). pose proof (rk_bound _ _ RK c' CL'). lia.
      * rewrite String.eqb_refl, NB by (now apply in_map). pose proof (rk_bound _ _ RK c CL). lia.
      * rewrite !NB by (now apply in_map). now apply (rk_inj _ _ RK).
    + intros c p [<-|CL] P.
      * destruct (PL p P) as (q & QL & <-). split; [cbn; right; now apply in_map|]. rewrite String.eqb_refl, NB by (now apply in_map). apply (rk_bound _ _ RK q QL).
      * destruct (rk_preds _ _ RK c p CL P) as [PI PR]. split; [cbn; auto|]. rewrite !NB; auto. now apply in_map.
Qed.

Lemma vpass_inv : forall l L g d q, incl l bs -> vpass fn io l (g, d) = Ok q -> Inv L g d ->
  exists L', Inv L' (fst (snd q)) (snd (snd q)) /\ ext g (fst (snd q)).
Proof.
  induction l as [|b l IH]; intros L g d q IN V INV; cbn [vpass] in V.
  - injection V as <-. exists L. split; auto. apply ext_refl.
  - cbn [snd] in V. assert (B : In b bs) by (apply IN; now left). assert (IN' : incl l bs) by (intros x X; apply IN; now right).
    destruct (vready d b) eqn:R; [|eauto]. ok V gd C. ok V q' V'. injection V as <-. cbn [snd]. destruct gd as [g1 d1].
    destruct (compute_inv _ _ _ _ _ _ INV B R C) as [INV1 X1]. destruct (IH _ _ _ _ IN' V' INV1) as (L' & A & X). exists L'. split; auto. eapply ext_trans; eauto.
Qed.
Lemma vpasses_inv : forall n L g d q, vpasses fn io n bs (g, d) = Ok q -> Inv L g d -> exists L', Inv L' (fst q) (snd q) /\ ext g (fst q).
Proof.
  induction n as [|n IH]; intros L g d q V INV; cbn [vpasses] in V; [discriminate|]. ok V p P.
  destruct (vpass_inv _ _ _ _ _ (incl_refl _) P INV) as (L' & A & X). destruct (fst p).
  - injection V as <-. eauto.
  - destruct (snd p) as [g1 d1]. cbn [fst snd] in *. destruct (IH _ _ _ _ V A) as (L2 & A2 & X2). exists L2. split; auto. eapply ext_trans; eauto.
Qed.
End Work.

Section Whole.
Variables (I : interp) (G : sigs) (fn : string) (io : ty -> bool) (K : string -> known).
Variables (bs : list vblock) (first : string) (args : list (string * ty)) (uninterp : list string).
Hypothesis RESP : respects I G.
Hypothesis WF : wf_graph G K bs first args.
Notation asg := (flat_map assigned bs).
Notation bnames := (map k_name bs).
Notation hvs := (flat_map havocs bs).
Notation fulln := (full fn).
Notation glob_ok := (glob_ok G fn args asg bnames hvs).
Notation used := (used fn asg bnames).
Notation okstate := (okstate G).
Notation NAMES := (wg_names _ _ _ _ _ WF).
Notation FRESH := (wg_fresh _ _ _ _ _ WF).

Definition arg_vars : list (string * expr) := map (fun p => (fst p, mkVar (fulln (fst p)) (snd p))) args.
Definition e_init : vstate := entry_state arg_vars uninterp.

Lemma dget_fold (l : list (string * expr)) d x : dget (fold_left (fun d p => dset d (fst p) (snd p)) l d) x =
  match dget (rev l) x with Some e => Some e | None => dget d x end.
Proof.
  revert d. induction l as [|[y e] l IH]; intros d; cbn [fold_left rev]; [reflexivity|]. rewrite IH. cbn [fst snd].
  assert (A : forall (a b : list (string * expr)), dget (a ++ b) x = match dget a x with Some v => Some v | None => dget b x end).
  { intros a b. induction a as [|[u v] a IHa]; cbn; auto. destruct (String.eqb _ _); auto. }
  rewrite A, dget_dset. cbn. destruct (dget (rev l) x); auto. repeat destruct (String.eqb _ _); auto.
Qed.
Lemma dget_nodup_in (l : list (string * expr)) x e : NoDup (map fst l) -> In (x, e) l -> dget (rev l) x = Some e.
Proof.
  intros N IN. apply nodup_dget; [unfold dkeys; rewrite map_rev; now apply NoDup_rev | now apply -> in_rev].
Qed.
Lemma arg_fst : map fst arg_vars = map fst args.
Proof. unfold arg_vars. rewrite map_map. reflexivity. Qed.
Lemma arg_nodup : NoDup (map fst args).
Proof. pose proof NAMES as N. revert N. generalize (asg ++ bnames). induction (map fst args) as [|a l IH]; intros m N; [constructor|]. inversion N as [|? ? NI N']; subst.
  constructor; [intros X; apply NI, in_or_app; auto | eapply IH; eauto]. Qed.
Lemma init_reg x t : In (x, t) args -> dget (w_regs e_init) x = Some (mkVar (fulln x) t).
Proof.
  intros IN. cbn. rewrite dget_fold, (dget_nodup_in _ x (mkVar (fulln x) t)); auto; [rewrite arg_fst; apply arg_nodup|].
  apply in_map_iff. exists (x, t). auto.
Qed.
Lemma init_inv x e : dget (w_regs e_init) x = Some e -> exists t, In (x, t) args /\ e = mkVar (fulln x) t.
Proof.
  cbn. rewrite dget_fold. destruct (dget (rev arg_vars) x) as [e'|] eqn:E; [|discriminate]. intros [= ->]. apply PyProofs3.dget_in, in_rev, in_map_iff in E as ([y t] & [= -> <-] & IN). eauto.
Qed.
Lemma init_keys : NoDup (dkeys (w_regs e_init)).
Proof.
  cbn. assert (N : NoDup (dkeys (@nil (string * expr)))) by constructor. revert N. generalize (@nil (string * expr)). induction arg_vars as [|p l IH]; intros d N; cbn; auto. apply IH, dset_nodup, N.
Qed.
Lemma true_typed U : typed G U (BoolLit true) TBool.
Proof. constructor. Qed.
Lemma init_ok g : glob_ok g -> (forall x t, In (x, t) args -> In (mkVar (fulln x) t) (q_vars g)) -> okstate (used g) e_init.
Proof.
  intros GO IN. constructor.
  - split; [apply init_keys|]. intros x e D. apply init_inv in D as (t & X & ->). exists t. split; [apply (wg_args _ _ _ _ _ WF), X|].
    constructor. apply (used_in G fn args asg bnames hvs g); auto. split; auto. unfold priv. apply not_true_iff_false. intros P. apply smem_in in P.
    apply in_map_iff in P as (y & E & P). apply full_inj in E. subst y. pose proof NAMES as N.
    revert N. apply (in_map fst) in X. cbn in X. revert X P. generalize (asg ++ bnames). induction (map fst args) as [|a l IH]; [intros ? []|].
    intros m [->|X] P N; inversion N as [|? ? NI N']; subst; [apply NI, in_or_app; auto | eapply IH; eauto].
  - split; [constructor|]. discriminate.
  - cbn. constructor; [apply true_typed|]. rewrite Forall_forall. intros e E. apply in_map_iff in E as (? & <- & _). apply true_typed.
  - discriminate.
Qed.

(** ** What a run that succeeds has computed *)
Theorem compute_vc_inv vars body : compute_vc fn io bs first args uninterp = Ok (vars, body) ->
  exists L g d gf, Inv G fn io bs first args e_init L g d /\ (forall b, In b bs -> In b L) /\
    glob_ok gf /\ ext g gf /\ vars = q_vars gf /\ In (mkVar (fulln first) TBool) vars /\
    (forall x t, In (x, t) args -> In (mkVar (fulln x) t) vars) /\
    body = Node KImplies TBool [Node KAnd TBool (map (fun p => match w_vc (vst d (fst p)) with Some e => e | None => Atom PNone end)
                 (sort_by (map (fun b => (k_name b, tt)) bs))); mkVar (fulln first) TBool].
Proof.
  intros H. unfold compute_vc in H. destruct (negb (smem first bnames)) eqn:SM; [discriminate|]. apply negb_false_iff, smem_in in SM.
  ok H vs A1. ok H gd A2. ok H c A3. ok H v A4. ok H bd A5. injection H as <- <-.
  destruct vs as [vs g0], gd as [g d], v as [v gf]. cbn [fst snd] in *.
  assert (GO0 : glob_ok {| q_vars := []; q_num := 0 |}) by (constructor; constructor).
  destruct (make_vars_ok G fn io args asg bnames hvs _ _ _ _ A1 GO0) as (-> & GO1 & X1 & N1 & IN1).
  { rewrite Forall_map, Forall_forall. intros [x t] IN. cbn. left. eauto. }
  rewrite map_map in *. cbn [fst snd ty_of_arg] in *.
  assert (AV : forall x t, In (x, t) args -> In (mkVar (fulln x) t) (q_vars g0)).
  { intros x t IN. apply IN1. apply in_map_iff. exists (x, t). auto. }
  assert (EI : entry_state (combine (map fst args) (map (fun x : string * ty => mkVar (fulln (fst x)) (snd x)) args)) uninterp = e_init).
  { unfold e_init, arg_vars. f_equal. clear. induction args as [|[x t] l IH]; cbn; [auto | now rewrite IH]. }
  rewrite EI in A2.
  assert (INV : Inv G fn io bs first args e_init [] g0 [(first, e_init)]).
  { constructor; auto.
    - intros x [].
    - intros b B. unfold has_vc, vst. cbn. destruct (String.eqb _ _); cbn; (split; [discriminate | intros []]).
    - intros b [].
    - intros _. unfold vst. cbn. now rewrite String.eqb_refl.
    - apply init_ok; auto.
    - exists (fun _ => 0%nat). constructor; intros; try contradiction. }
  destruct (vpasses_inv I G fn io K bs first args RESP WF e_init _ _ _ _ _ A2 INV) as (L & IL & XL). cbn [fst snd] in *.
  assert (C4 : cls G fn args asg bnames hvs (q_num g) (fulln first) TBool) by (right; right; left; eauto).
  destruct (make_var_ok G fn io args asg bnames hvs _ _ _ _ _ A4 (iv_glob _ _ _ _ _ _ _ _ _ _ IL) C4) as (-> & GF & XF & NF & INF). cbn [ty_of_arg] in *.
  exists L, g, d, gf. split; auto.
  assert (CT : check_types TBool (map (fun p => match w_vc (vst d (fst p)) with Some e => e | None => Atom PNone end) (sort_by (map (fun b => (k_name b, tt)) bs))) = Ok tt).
  { revert A3. match goal with |- mkBoolN _ ?l = _ -> _ => generalize l end. intros [|e l]; [discriminate|]. cbn [mkBoolN]. intros A3. ok A3 u E. now destruct u. }
  split.
  { intros b B. apply (iv_done _ _ _ _ _ _ _ _ _ _ IL b B). unfold has_vc. destruct (w_vc (vst d (k_name b))) eqn:W; auto. exfalso.
    assert (IN : In (Atom PNone) (map (fun p => match w_vc (vst d (fst p)) with Some e => e | None => Atom PNone end) (sort_by (map (fun b => (k_name b, tt)) bs)))).
    { apply in_map_iff. exists (k_name b, tt). cbn. rewrite W. split; auto. apply sort_in, in_map_iff. eauto. }
    revert CT IN. match goal with |- check_types _ ?l = _ -> _ => generalize l end. induction l as [|e l IH]; [intros _ []|]. cbn [check_types]. intros CT [->|IN]; [discriminate|].
    ok CT t T. destruct (ty_eqb t TBool); [auto | discriminate]. }
  split; auto. split; auto. split; auto. split; auto. split.
  { intros x t IN. apply (ext_vars _ _ XF), (ext_vars _ _ XL), AV, IN. }
  apply mkBoolN_is in A3 as [_ ->]. unfold mkImplies in A5. ok A5 u E. injection A5 as <-. reflexivity.
Qed.
End Whole.
