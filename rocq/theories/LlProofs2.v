(** Proofs about the LLVM frontend, part 2: the control-flow graph and the order in
    which its blocks are visited. *)

From Coq Require Import String List ZArith Bool Lia.
From Verif Require Import Ast Semantics Dict ObjModel UtilModel UtilProofs PyModel PySem PyProofs PyProofs2 PyProofs3 PyProofs4 LlModel LlSem LlProofs.
Import ListNotations.
Local Open Scope list_scope.

(** ** Lookup *)

Lemma find_block_in bs x b : find_block bs x = Some b -> In b bs /\ b_name b = x.
Proof.
  induction bs as [|c bs IH]; cbn; [discriminate|]. destruct (String.eqb_spec x (b_name c)).
  - intros [= <-]. auto.
  - intros H. destruct (IH H). auto.
Qed.
Lemma find_block_nodup bs b : NoDup (map b_name bs) -> In b bs -> find_block bs (b_name b) = Some b.
Proof.
  induction bs as [|c bs IH]; cbn; [tauto|]. intros ND [->|IN].
  - now rewrite String.eqb_refl.
  - inversion ND as [|? ? NI ND']; subst. destruct (String.eqb_spec (b_name b) (b_name c)) as [E|].
    + exfalso. apply NI. rewrite <- E. now apply in_map.
    + now apply IH.
Qed.
Lemma smem_not_in x l : smem x l = false <-> ~ In x l.
Proof. destruct (smem x l) eqn:E; [apply smem_in in E | ]; split; try congruence; try tauto. intros _ IN. apply smem_true in IN. congruence. Qed.

(** ** The graph *)

Lemma preds_of_in x p l : In p (preds_of x l) <-> exists ts, In (p, ts) l /\ In x ts.
Proof.
  unfold preds_of. rewrite in_flat_map. split.
  - intros ([q ts] & IN & H). cbn [fst snd] in H. apply in_map_iff in H as (y & <- & H). apply filter_In in H as [H E].
    apply String.eqb_eq in E. subst y. eauto.
  - intros (ts & IN & H). exists (p, ts). split; auto. cbn [fst snd]. apply in_map_iff. exists x. split; auto.
    apply filter_In. split; auto. apply String.eqb_refl.
Qed.

Lemma setup_ts (blks : list (string * list instr)) (ts : list (string * list string)) : mapR (fun p => t <- targets (snd p) ;; Ok (fst p, t)) blks = Ok ts ->
  map fst ts = map fst blks /\
  (forall p, In p blks -> exists t, targets (snd p) = Ok t /\ In (fst p, t) ts) /\
  (forall x t, In (x, t) ts -> exists is, In (x, is) blks /\ targets is = Ok t).
Proof.
  revert ts. induction blks as [|[x is] blks IH]; intros ts H; cbn [mapR] in H.
  - injection H as <-. cbn. intuition.
  - ok H p Ep. ok H ts' Ets. injection H as <-. ok Ep t Et. injection Ep as <-. destruct (IH _ Ets) as (A & B & C). cbn [map fst snd] in *.
    split; [cbn; congruence|]. split.
    + intros q [<-|IN]; [exists t; cbn; auto|]. destruct (B q IN) as (u & E & IN'). exists u. cbn. auto.
    + intros y u [[= <- <-]|IN]; [exists is; cbn; auto|]. destruct (C y u IN) as (is' & I1 & I2). exists is'. cbn. auto.
Qed.

Record graph (blks : list (string * list instr)) (bs : list block) (los : list loop_info) : Prop := {
  gr_names : map b_name bs = map fst blks;
  gr_instrs : forall b, In b bs -> In (b_name b, b_instrs b) blks;
  gr_targets : forall b, In b bs -> exists ts, targets (b_instrs b) = Ok ts;
  gr_preds : forall b p, In b bs -> In p (b_preds b) ->
    exists pb ts, In pb bs /\ b_name pb = p /\ targets (b_instrs pb) = Ok ts /\ In (b_name b) ts;
  gr_succs : forall pb ts t, In pb bs -> targets (b_instrs pb) = Ok ts -> In t ts ->
    exists tb, In tb bs /\ b_name tb = t /\
      (In (b_name pb) (b_preds tb) \/ exists lo, In lo los /\ lo_header lo = t /\ In (b_name pb) (lo_latches lo)) }.

Lemma setup_graph blks bs : setup_blocks blks = Ok bs -> graph blks bs [].
Proof.
  unfold setup_blocks. intros H. ok H ts Ets. destruct (setup_ts _ _ Ets) as (A & B & C).
  destruct (forallb _ ts) eqn:F; [|discriminate]. injection H as <-. rewrite forallb_forall in F. constructor.
  - rewrite map_map. cbn. reflexivity.
  - intros b IN. apply in_map_iff in IN as ([x is] & <- & IN). exact IN.
  - intros b IN. apply in_map_iff in IN as ([x is] & <- & IN). cbn. destruct (B _ IN) as (t & E & _). eauto.
  - intros b p IN P. apply in_map_iff in IN as ([x is] & <- & IN). cbn [b_preds b_name fst snd] in *.
    apply preds_of_in in P as (t & P & Q). destruct (C _ _ P) as (is' & I1 & I2).
    exists {| b_name := p; b_instrs := is'; b_preds := preds_of p ts; b_succs := t |}, t. cbn. split; auto.
    apply in_map_iff. exists (p, is'). cbn. rewrite I2. auto.
  - intros pb t u IN T U. apply in_map_iff in IN as ([x is] & <- & IN). cbn [b_instrs b_name fst snd] in *.
    destruct (B _ IN) as (t' & E & IN'). cbn [fst snd] in *. rewrite T in E. injection E as <-.
    specialize (F _ IN'). cbn [snd] in F. rewrite forallb_forall in F. specialize (F u U). apply smem_in in F.
    apply in_map_iff in F as ([y isy] & <- & F). eexists. split; [apply in_map; exact F|]. cbn. split; auto. left.
    apply preds_of_in. eauto.
Qed.

Lemma remove_one_in x l l' : remove_one x l = Ok l' -> (forall y, In y l' -> In y l) /\ (forall y, In y l -> y = x \/ In y l').
Proof.
  revert l'. induction l as [|z l IH]; intros l' H; cbn in H; [discriminate|].
  destruct (String.eqb_spec x z) as [->|N].
  - injection H as <-. split; intros y; cbn; intuition.
  - ok H r' Er. injection H as <-. destruct (IH _ Er) as [A B]. split; intros y; cbn; intros [->|IN]; auto.
    destruct (B y IN); auto.
Qed.

(** what removing back edges does to a block *)
Definition reduced (los : list loop_info) (b b' : block) : Prop :=
  b_name b' = b_name b /\ b_instrs b' = b_instrs b /\ incl (b_preds b') (b_preds b) /\
  forall p, In p (b_preds b) -> In p (b_preds b') \/ exists lo, In lo los /\ lo_header lo = b_name b /\ In p (lo_latches lo).
Lemma reduced_refl los b : reduced los b b.
Proof. repeat split; auto. intros x; auto. Qed.
Lemma reduced_trans los1 los2 los b1 b2 b3 : reduced los1 b1 b2 -> reduced los2 b2 b3 -> incl los1 los -> incl los2 los -> reduced los b1 b3.
Proof.
  intros (A1 & A2 & A3 & A4) (B1 & B2 & B3 & B4) I1 I2. repeat split; try congruence.
  - intros x H. auto.
  - intros p IN. destruct (A4 p IN) as [IN2|(lo & L1 & L2 & L3)]; [|right; exists lo; auto].
    destruct (B4 p IN2) as [|(lo & L1 & L2 & L3)]; auto. right. exists lo. split; auto. split; congruence.
Qed.
Lemma reduced_all los bs : Forall2 (reduced los) bs bs.
Proof. induction bs; constructor; auto using reduced_refl. Qed.
Lemma reduced_all_trans los1 los2 los bs1 bs2 : Forall2 (reduced los1) bs1 bs2 -> forall bs3, Forall2 (reduced los2) bs2 bs3 ->
  incl los1 los -> incl los2 los -> Forall2 (reduced los) bs1 bs3.
Proof.
  induction 1; intros bs3 F I1 I2; inversion F; subst; constructor; eauto using reduced_trans.
Qed.

Lemma remove_edge_reduced los lo bs latch bs' : remove_edge bs latch (lo_header lo) = Ok bs' ->
  In lo los -> In latch (lo_latches lo) -> NoDup (map b_name bs) -> Forall2 (reduced los) bs bs'.
Proof.
  unfold remove_edge. intros H IN IL ND. ok H l El. ok H h Eh. ok H su Esu. ok H pr Epr. injection H as <-.
  assert (F : forall b, In b bs -> reduced los b {| b_name := b_name b; b_instrs := b_instrs b;
      b_preds := if String.eqb (b_name b) (lo_header lo) then pr else b_preds b;
      b_succs := if String.eqb (b_name b) latch then su else b_succs b |}).
  { intros b INb. destruct (remove_one_in _ _ _ Epr) as [A B].
    destruct (String.eqb_spec (b_name b) (lo_header lo)) as [E|N].
    - assert (h = b). { unfold get_block in Eh. destruct (find_block bs (lo_header lo)) as [h'|] eqn:FB; [|discriminate]. injection Eh as <-.
        rewrite <- E in FB. rewrite (find_block_nodup _ _ ND INb) in FB. congruence. }
      subst h. repeat split; auto. intros p P. cbn. destruct (B p P) as [->|]; auto. right. exists lo. split; auto.
    - repeat split; auto. intros x. cbn. auto. }
  clear - F. revert F. generalize bs. intros cs. induction cs as [|c cs IH]; intros F; cbn [map]; constructor; [apply F; now left|].
  apply IH. intros b INb. apply F. now right.
Qed.
Lemma reduced_names los bs bs' : Forall2 (reduced los) bs bs' -> map b_name bs' = map b_name bs.
Proof. induction 1 as [|b b' bs bs' (A & _)]; cbn; congruence. Qed.

Lemma loop_of_reduced bs rl bs' lo : loop_of bs rl = Ok (bs', lo) -> NoDup (map b_name bs) ->
  Forall2 (reduced [lo]) bs bs' /\ lo_header lo = rl_header rl /\ lo_latches lo = rl_latches rl.
Proof.
  unfold loop_of. intros H ND. ok H h Eh. ok H body Eb. ok H exits Ee. ok H latches El. ok H bs1 Ebs. injection H as <- E.
  assert (E1 : lo_header lo = rl_header rl) by (rewrite <- E; reflexivity).
  assert (E2 : lo_latches lo = rl_latches rl) by (rewrite <- E; reflexivity).
  split; auto. clear E Eb Ee El Eh h body exits latches.
  assert (I : incl (rl_latches rl) (lo_latches lo)) by (rewrite E2; intros x; auto). clear E2.
  revert bs ND I Ebs. induction (rl_latches rl) as [|l ls IH]; intros bs ND I R.
  - injection R as <-. apply reduced_all.
  - ok R bs2 E2. rewrite <- E1 in E2.
    assert (F : Forall2 (reduced [lo]) bs bs2) by (eapply remove_edge_reduced; eauto; [now left | apply I; now left]).
    eapply reduced_all_trans; [exact F | | apply incl_refl | apply incl_refl].
    apply IH; auto. + now rewrite (reduced_names _ _ _ F). + intros x IN. apply I. now right.
Qed.

Definition matches (rl : raw_loop) (lo : loop_info) : Prop := lo_header lo = rl_header rl /\ lo_latches lo = rl_latches rl.
Lemma loops_of_reduced rls : forall bs bs' los, loops_of bs rls = Ok (bs', los) -> NoDup (map b_name bs) ->
  Forall2 (reduced los) bs bs' /\ Forall2 matches rls los.
Proof.
  induction rls as [|rl rls IH]; intros bs bs' los H ND; cbn [loops_of] in H.
  - injection H as <- <-. split; [apply reduced_all | constructor].
  - ok H p Ep. ok H q Eq'. destruct p as [bs1 lo]. destruct q as [bs2 los2]. injection H as <- <-. cbn [fst snd] in *.
    destruct (loop_of_reduced _ _ _ _ Ep ND) as (A & B & C).
    destruct (IH _ _ _ Eq') as [D E]. { now rewrite (reduced_names _ _ _ A). }
    split; [|constructor; auto; split; auto].
    eapply reduced_all_trans; [exact A | exact D | intros x [<-|[]]; now left | intros x; now right].
Qed.

Lemma graph_ok f bs los : graph_of f = Ok (bs, los) -> NoDup (map fst (lf_blocks f)) ->
  graph (lf_blocks f) bs los /\ Forall2 matches (lf_loops f) los.
Proof.
  unfold graph_of. intros H ND. ok H bs0 E0. apply setup_graph in E0. destruct E0 as [N INS TG PR SU].
  destruct (loops_of_reduced _ _ _ _ H) as [R M]. { now rewrite N. }
  split; auto. 
  assert (FW : forall b, In b bs0 -> exists b', In b' bs /\ reduced los b b').
  { clear - R. induction R as [|b b' bs0 bs RB R IH]; [intros b []|]. intros c [<-|IN]; [exists b'; split; [now left | auto]|].
    destruct (IH c IN) as (c' & ? & ?). exists c'. split; [now right | auto]. }
  assert (BW : forall b', In b' bs -> exists b, In b bs0 /\ reduced los b b').
  { clear - R. induction R as [|b b' bs0 bs RB R IH]; [intros b []|]. intros c [<-|IN]; [exists b; split; [now left | auto]|].
    destruct (IH c IN) as (c' & ? & ?). exists c'. split; [now right | auto]. }
  constructor.
  - rewrite (reduced_names _ _ _ R). exact N.
  - intros b' IN. destruct (BW _ IN) as (b & INb & (A & B & _)). rewrite A, B. auto.
  - intros b' IN. destruct (BW _ IN) as (b & INb & (A & B & _)). rewrite B. auto.
  - intros b' p IN P. destruct (BW _ IN) as (b & INb & (A & B & C & D)).
    destruct (PR b p INb (C p P)) as (pb & ts & P1 & P2 & P3 & P4). destruct (FW _ P1) as (pb' & Q & (A' & B' & _)).
    exists pb', ts. split; auto. split; [congruence|]. split; congruence.
  - intros pb' ts t IN T U. destruct (BW _ IN) as (pb & INb & (A & B & _)). rewrite B in T.
    destruct (SU pb ts t INb T U) as (tb & T1 & T2 & T3). destruct T3 as [T3|(lo & [] & _)].
    destruct (FW _ T1) as (tb' & Q & (A' & B' & C' & D')). exists tb'. split; auto. split; [congruence|].
    rewrite A. destruct (D' _ T3) as [|(lo & L1 & L2 & L3)]; auto. right. exists lo. split; auto. split; [congruence | auto].
Qed.

Lemma nodupb_ok l : nodupb l = true -> NoDup l.
Proof.
  induction l as [|x l IH]; cbn; intros H; constructor; apply andb_true_iff in H as [A B].
  - apply negb_true_iff, smem_not_in in A. exact A.
  - auto.
Qed.
Lemma dget_nodup {A} (d : dict A) x a : NoDup (map fst d) -> In (x, a) d -> dget d x = Some a.
Proof.
  induction d as [|[y b] d IH]; cbn; [tauto|]. intros ND [[= -> ->]|IN].
  - now rewrite String.eqb_refl.
  - inversion ND as [|? ? NI ND']; subst. destruct (String.eqb_spec x y) as [->|]; [|auto].
    exfalso. apply NI. change y with (fst (y, a)). now apply in_map.
Qed.

(** ** What a visit leaves alone *)

Record frame (W : list string) (v v' : visitor) : Prop := {
  fr_st : forall c, ~ In c W -> st v' c = st v c;
  fr_done : v_done v' = v_done v;
  fr_preds : forall x p, dget (v_preds v) x = Some p -> dget (v_preds v') x = Some p }.
Lemma frame_refl W v : frame W v v.
Proof. constructor; auto. Qed.
Lemma frame_trans W v1 v2 v3 : frame W v1 v2 -> frame W v2 v3 -> frame W v1 v3.
Proof. intros [A B C] [D E F]. constructor; auto; [|congruence]. intros c N. rewrite D, A; auto. Qed.
Lemma frame_weaken W W' v v' : incl W W' -> frame W v v' -> frame W' v v'.
Proof. intros I [A B C]. constructor; auto. Qed.
Lemma frame_same b v v' W : same_but b v v' -> In b W -> frame W v v'.
Proof. intros [A B C D] IN. constructor; auto; [|congruence]. intros c N. apply A. intros ->. auto. Qed.
Lemma frame_pred W v x p : dget (v_preds v) x = None -> frame W v (set_pred v x p).
Proof. intros H. constructor; auto. intros y q E. cbn. rewrite dget_dset. destruct (String.eqb_spec y x); congruence. Qed.

Definition cond_targets (i : instr) : list string := match i with ICondBr _ t e => [t; e] | _ => [] end.

Section Frame.
Variables (fn : string) (ret : ty) (fargs : list obj) (sret : option obj) (uninterp : list string)
          (loops : list loop_info) (grammars : dict (list string * list obj)).

Lemma runS_frame {A} (g : A -> visitor -> res visitor) W l v v' :
  (forall a v v', In a l -> g a v = Ok v' -> frame W v v') -> runS g l v = Ok v' -> frame W v v'.
Proof.
  revert v. induction l as [|a l IH]; intros v H R; cbn [runS] in R.
  - injection R as <-. apply frame_refl.
  - ok R v1 E. eapply frame_trans; [eapply H; eauto; now left|]. apply IH; auto. intros a' v2 v2' IN. apply H. now right.
Qed.

Lemma set_prim_frame W v b x o : In b W -> frame W v (set_prim v b x o).
Proof. intros IN. eapply frame_same; eauto. apply set_prim_facts. Qed.
Lemma set_ptr_frame W v b x o : In b W -> frame W v (set_ptr v b x o).
Proof. intros IN. eapply frame_same; eauto. apply set_ptr_facts. Qed.
Lemma set_st_frame W v b s : In b W -> frame W v (set_st v b s).
Proof. intros IN. eapply frame_same; eauto. apply same_set_st. Qed.
Lemma write_result_frame W v b x p o : In b W -> frame W v (write_result v b x p o).
Proof. intros IN. unfold write_result. destruct (x =? "")%string; [apply frame_refl | now apply set_st_frame]. Qed.
Lemma set_where_frame W v b x o v' : In b W -> set_where v b x o = Ok v' -> frame W v v'.
Proof.
  intros IN H. unfold set_where in H. destruct (dmem _ x); [injection H as <-; now apply set_prim_frame|].
  destruct (dmem _ x); [injection H as <-; now apply set_ptr_frame | discriminate].
Qed.

Lemma visit_call_frame W v b x p f args t v' : In b W -> visit_call uninterp v b x p f args t = Ok v' -> frame W v v'.
Proof.
  intros IN H. unfold visit_call in H.
  repeat match type of H with
  | Err _ = Ok _ => discriminate H
  | Ok _ = Ok _ => injection H as <-
  | (if ?c then _ else _) = _ => destruct c
  | (match ?l with [] => _ | _ => _ end) = _ => destruct l
  | (match ?o with OName _ _ => _ | _ => _ end) = _ => destruct o
  | bindR _ _ = Ok _ => let o1 := fresh in let E1 := fresh in ok H o1 E1
  end; auto using frame_refl, write_result_frame, set_st_frame.
  - eapply frame_trans; [apply write_result_frame; eauto | eapply set_where_frame; eauto].
  - eapply set_where_frame; eauto.
  - eapply set_where_frame; eauto.
Qed.

Lemma visit_ret_frame W v b op v' : In b W -> visit_ret fn fargs sret v b op = Ok v' -> frame W v v'.
Proof.
  intros IN H. unfold visit_ret in H. ok H rv Erv.
  match type of H with match dget (v_preds ?w) fn with _ => _ end = _ => set (v1 := w) in *; assert (F1 : frame W v v1) end.
  { unfold v1. destruct (dget (v_preds v) fn) eqn:E; [apply frame_refl | now apply frame_pred]. }
  destruct (dget (v_preds v1) fn); [|discriminate]. ok H ps Eps. ok H a Ea. injection H as <-.
  eapply frame_trans; [exact F1|]. destruct (set_st_frame W v1 b (l_assert (st v b) a) IN). constructor; auto.
Qed.

Lemma visit_instr_frame W v b i v' : In b W -> incl (cond_targets i) W -> visit_instr fn fargs sret uninterp b i v = Ok v' -> frame W v v'.
Proof.
  intros IN IC H. unfold visit_instr in H. destruct i as [x t|x p src|val dst|op x l r|cond x l r|op x a|x p f args t|t|c t e|o|]; try discriminate H.
  - ok H o Eo. injection H as <-. now apply set_ptr_frame.
  - ok H o Eo. injection H as <-. destruct p; [now apply set_ptr_frame | now apply set_prim_frame].
  - ok H o Eo. destruct dst; try discriminate. injection H as <-. now apply set_ptr_frame.
  - ok H lo El. ok H ro Er. ok H o Eo. injection H as <-. now apply set_prim_frame.
  - ok H lo El. ok H ro Er. ok H o Eo. injection H as <-. now apply set_prim_frame.
  - destruct (_ && _); ok H o Eo; injection H as <-; [now apply set_ptr_frame | now apply set_prim_frame].
  - eapply visit_call_frame; eauto.
  - injection H as <-. apply frame_refl.
  - ok H o Eo. destruct (negb _); [discriminate|]. ok H n En. injection H as <-.
    eapply frame_trans; [apply (set_st_frame _ _ t) | apply (set_st_frame _ _ e)]; apply IC; cbn; auto.
  - eapply visit_ret_frame; eauto.
Qed.

Lemma preprocess_frame W v b v' : In b W -> preprocess fn ret fargs sret v b = Ok v' -> frame W v v'.
Proof.
  intros IN H. unfold preprocess in H. ok H v1 E1.
  assert (F : frame W v v1).
  { eapply frame_trans; [apply (set_st_frame W v b (with_precond (st v b) (l_precond (st v b) ++ v_post v))); exact IN|]. revert E1.
    generalize (set_st v b (with_precond (st v b) (l_precond (st v b) ++ v_post v))).
    generalize (fargs ++ [var_obj ret (fn ++ "_rv")%string]). intros l. induction l as [|o l IH]; intros v0 E.
    - injection E as <-. apply frame_refl.
    - ok E v2 E2. ok E2 x Ex. injection E2 as <-. eapply frame_trans; [|apply IH; exact E].
      destruct (is_pointer_type (o_ty o)); [now apply set_ptr_frame | now apply set_prim_frame]. }
  destruct sret; [|injection H as <-; auto]. ok H x Ex. injection H as <-. eapply frame_trans; [exact F | now apply set_ptr_frame].
Qed.
Lemma merge_frame W v b v' : In (b_name b) W -> merge_states v b = Ok v' -> frame W v v'.
Proof.
  intros IN H. unfold merge_states in H. destruct (b_preds b) as [|p [|q ps]].
  - injection H as <-. apply frame_refl.
  - injection H as <-. now apply set_st_frame.
  - ok H cs Ecs. ok H pc Epc. ok H d1 E1. ok H d2 E2. injection H as <-. now apply set_st_frame.
Qed.
Lemma loop_inv_frame W v s n hv v' p : loop_inv fn fargs grammars v s n hv = Ok (v', p) ->
  frame W v v' /\ dget (v_preds v') (inv_name fn n) = Some p /\ v_states v' = v_states v.
Proof.
  intros H. unfold loop_inv in H. ok H a0 Ea. destruct (dget (v_preds v) (inv_name fn n)) as [q|] eqn:E.
  - injection H as <- <-. split; [apply frame_refl | auto].
  - ok H rest Er. injection H as <- <-. split; [now apply frame_pred|]. split; auto. cbn. rewrite dget_dset. now rewrite String.eqb_refl.
Qed.
Lemma enter_frame W v b p v' : In b W -> enter_loop fn fargs grammars b p v = Ok v' -> frame W v v'.
Proof.
  intros IN H. unfold enter_loop in H. ok H hv Ehv. ok H v1 E1. ok H vi Evi. ok H i Ei. injection H as <-. destruct vi as [v2 q]. cbn [fst snd] in *.
  eapply frame_trans; [|apply set_st_frame; exact IN]. eapply frame_trans; [|eapply loop_inv_frame; exact Evi].
  clear - E1 IN. revert v E1. induction hv as [|o hv IH]; intros v E.
  - injection E as <-. apply frame_refl.
  - ok E x Ex. eapply frame_trans; [|apply IH; exact E]. now apply set_ptr_frame.
Qed.
Lemma assert_inv_frame W v b p v' : In b W -> assert_inv fn fargs grammars b p v = Ok v' -> frame W v v'.
Proof.
  intros IN H. unfold assert_inv in H. ok H hv Ehv. ok H vi Evi. ok H i Ei. ok H a Ea. injection H as <-. destruct vi as [v2 q]. cbn [fst snd] in *.
  eapply frame_trans; [|apply set_st_frame; exact IN]. eapply loop_inv_frame; exact Evi.
Qed.

Variable blocks : list block.
Notation VB := (visit_block fn ret fargs sret uninterp loops grammars blocks).
Notation PASSES := (passes fn ret fargs sret uninterp loops grammars blocks).

Lemma visit_block_done b v v' : VB b v = Ok v' -> v_done v' = v_done v ++ [b_name b].
Proof.
  intros H. unfold visit_block in H. set (W := b_name b :: flat_map cond_targets (b_instrs b)).
  assert (IN : In (b_name b) W) by now left. ok H v1 E1. ok H v2 E2. ok H v3 E3.
  assert (F1 : frame W v v1).
  { destruct (b_preds b); [eapply preprocess_frame; eauto | eapply merge_frame; eauto]. }
  assert (F2 : frame W v1 v2). { eapply runS_frame; [|exact E2]. intros. eapply enter_frame; eauto. }
  assert (F3 : frame W v2 v3).
  { eapply runS_frame; [|exact E3]. intros i w w' INi E. eapply visit_instr_frame; eauto. intros t T. right. apply in_flat_map. eauto. }
  assert (F4 : frame W (set_done v3 (b_name b)) v'). { eapply runS_frame; [|exact H]. intros. eapply assert_inv_frame; eauto. }
  rewrite (fr_done _ _ _ F4). cbn. now rewrite (fr_done _ _ _ F3), (fr_done _ _ _ F2), (fr_done _ _ _ F1).
Qed.

(** ** The order of the visits *)

Inductive reach (v0 : visitor) : visitor -> Prop :=
| reach0 : reach v0 v0
| reach1 v b v' : reach v0 v -> In b blocks -> ready v b = true -> VB b v = Ok v' -> reach v0 v'.
Lemma reach_trans v1 v2 v3 : reach v1 v2 -> reach v2 v3 -> reach v1 v3.
Proof. intros A B. induction B; eauto using reach. Qed.

Lemma one_pass_reach l v v' : incl l blocks -> runS (fun b v => if ready v b then VB b v else Ok v) l v = Ok v' ->
  reach v v' /\ (exists d, v_done v' = v_done v ++ d) /\
  (length (v_done v') = length (v_done v) -> v' = v /\ forall b, In b l -> ready v b = false).
Proof.
  revert v. induction l as [|b l IH]; intros v I R; cbn [runS] in R.
  - injection R as <-. split; [constructor|]. split; [exists []; now rewrite app_nil_r|]. intros _. split; auto. intros b [].
  - ok R v1 E. assert (I' : incl l blocks) by (intros x IN; apply I; now right). destruct (IH v1 I' R) as (A & (d & D) & C).
    destruct (ready v b) eqn:RD.
    + pose proof (visit_block_done _ _ _ E) as VD. split; [|split].
      * eapply reach_trans; [|exact A]. eapply reach1; eauto; [constructor | apply I; now left].
      * exists (b_name b :: d). rewrite D, VD, <- app_assoc. reflexivity.
      * intros L. rewrite D, VD, !app_length in L. cbn in L. lia.
    + injection E as <-. split; auto. split; [exists d; auto|]. intros L. destruct (C L) as [-> C']. split; auto.
      intros c [<-|IN]; auto.
Qed.
Lemma passes_reach fuel : forall v V, PASSES fuel v = Ok V -> reach v V /\ forall b, In b blocks -> ready V b = false.
Proof.
  induction fuel as [|fuel IH]; intros v V H; cbn [passes] in H; [discriminate|].
  ok H v1 E. destruct (one_pass_reach blocks v v1 (incl_refl _) E) as (A & _ & C).
  destruct (Nat.eqb_spec (length (v_done v1)) (length (v_done v))) as [L|L].
  - injection H as <-. split; auto. destruct (C L) as [-> C']. exact C'.
  - destruct (IH _ _ H) as [B D]. split; auto. eapply reach_trans; eauto.
Qed.

(** every visited block comes after its predecessors, and only once *)
Definition ordered (d : list string) : Prop :=
  forall l1 x l2, d = l1 ++ x :: l2 -> exists b, In b blocks /\ b_name b = x /\ ~ In x l1 /\ incl (b_preds b) l1.
Lemma ready_ok v b : ready v b = true <-> ~ In (b_name b) (v_done v) /\ incl (b_preds b) (v_done v).
Proof.
  unfold ready. rewrite andb_true_iff, negb_true_iff, smem_not_in, forallb_forall. split; intros [A B]; split; auto.
  - intros p IN. apply smem_true. auto.
  - intros p IN. apply smem_true. auto.
Qed.
Lemma reach_ordered v0 v : v_done v0 = [] -> reach v0 v -> ordered (v_done v).
Proof.
  intros E R. induction R as [|v b v' R IH IN RD VB'].
  - rewrite E. intros l1 x l2 H. destruct l1; discriminate.
  - rewrite (visit_block_done _ _ _ VB'). apply ready_ok in RD as [N P]. intros l1 x l2 H.
    destruct (@exists_last _ (x :: l2)) as (l3 & y & E3); [discriminate|].
    rewrite E3, app_assoc in H. apply app_inj_tail in H as [H <-].
    destruct l3 as [|z l3].
    + cbn in E3. injection E3 as -> ->. rewrite app_nil_r in H. subst l1. exists b. auto.
    + cbn in E3. injection E3 as -> ->. apply (IH l1 z l3). exact H.
Qed.
Lemma ordered_nodup d : ordered d -> NoDup d.
Proof.
  intros O. rewrite <- (rev_involutive d). apply NoDup_rev.
  assert (H : forall l1 x l2, rev d = l2 ++ x :: l1 -> ~ In x l1).
  { intros l1 x l2 E. assert (E' : d = rev l1 ++ x :: rev l2).
    { rewrite <- (rev_involutive d), E, rev_app_distr. cbn. now rewrite <- app_assoc. }
    destruct (O _ _ _ E') as (_ & _ & _ & N & _). intros IN. apply N. now apply in_rev in IN. }
  revert H. generalize (rev d). clear. induction l as [|x l IH]; intros H; constructor.
  - apply (H l x []). reflexivity.
  - apply IH. intros l1 y l2 ->. apply (H l1 y (x :: l2)). reflexivity.
Qed.
End Frame.
