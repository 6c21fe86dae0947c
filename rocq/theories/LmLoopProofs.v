(** Proofs about the loop of llmlift_scripts/synthesis.py. *)

From Coq Require Import String List ZArith Bool Lia.
From Verif Require Import Ast IrProofs Dict SynthModel LmModel LmProofs LmLoop LmLoopSem.
Import ListNotations.
Local Open Scope string_scope.
Local Open Scope list_scope.

Lemma mapR_in {A B} (f : A -> res B) : forall l l', mapR f l = Ok l' -> (forall y, In y l' -> exists x, In x l /\ f x = Ok y) /\ (forall x, In x l -> exists y, f x = Ok y /\ In y l').
Proof.
  induction l as [|a l IH]; intros l' E; cbn in E; [injection E as <-; split; intros ? []|].
  apply bindR_ok in E as (b & Eb & E). apply bindR_ok in E as (l2 & E2 & E). injection E as <-. destruct (IH _ E2) as [I1 I2]. split.
  - intros y [<-|Y]; [exists a; cbn; auto|]. destruct (I1 y Y) as (x & X1 & X2). exists x. cbn. auto.
  - intros x [<-|X]; [exists b; cbn; auto|]. destruct (I2 x X) as (y & Y1 & Y2). exists y. cbn. auto.
Qed.
Lemma find_lam_in l e n : find_lam l e = Ok (Some n) -> exists k, In (k, n) l /\ same k e.
Proof.
  induction l as [|[k m] l IH]; cbn; [discriminate|]. intros E. apply bindR_ok in E as (q & Q & E). destruct q; [injection E as ->; exists k; auto|]. destruct (IH E) as (k' & ? & ?). exists k'. auto.
Qed.
Lemma py_set_in l : forall acc out, py_set l acc = Ok out ->
  incl acc out /\ (forall e, In e out -> In e acc \/ In e l) /\ (forall e, In e l -> exists k, (k = e \/ same k e) /\ In k out).
Proof.
  induction l as [|e l IH]; intros acc out E; cbn [py_set] in E; [injection E as <-; split; [apply incl_refl|split; [auto|intros ? []]]|].
  apply bindR_ok in E as (q & Q & E). destruct (IH _ _ E) as (I1 & I2 & I3). destruct q as [n|].
  - apply find_lam_in in Q as (k & K & S1). apply in_map_iff in K as (k' & X & K). injection X as -> _.
    split; [exact I1|]. split; [intros x X; destruct (I2 x X); cbn; auto|]. intros x [<-|X]; [exists k; auto|auto].
  - split; [intros x X; apply I1, in_or_app; auto|]. split.
    + intros x X. destruct (I2 x X) as [Y|Y]; [apply in_app_or in Y as [Y|[->|[]]]; cbn; auto|cbn; auto].
    + intros x [<-|X]; [exists e; split; [auto|apply I1, in_or_app; right; left; reflexivity]|auto].
Qed.

(** what a verified run ends with *)
Definition ends_well (w : outside) (cfg : config) (l : lam_names) (ds1 : list expr) (calls1 : list (string * string)) (tr0 tr : list event) : Prop :=
  exists tr1 m inv s' l' ds2 calls2 all vc tr2, tr = tr2 /\
    incl tr0 tr1 /\ In (EAsk m inv) tr1 /\ (exists ps, m_prompt m = InvPrompt ps) /\ after w cfg l l' /\ accepted w cfg (if c_double cfg then 2 else 1) inv l' s' ds2 calls2 /\
    py_set (ds1 ++ ds2) [] = Ok all /\ replace_in_calls (calls1 ++ calls2) (c_vc cfg) = Ok vc /\
    verify_with w cfg all (calls1 ++ calls2) vc tr1 = (Done true, tr2).

Lemma verify_grows w cfg all calls vc tr r tr' : verify_with w cfg all calls vc tr = (r, tr') -> incl tr tr'.
Proof.
  unfold verify_with, verify_smt, verify_rosette. destruct (c_method cfg).
  - intros E. injection E as <- <-. apply incl_refl.
  - destruct (mapR (replace_in_calls calls) (rkt_fns (c_dsl cfg))), (mapR (replace_in_calls calls) all); intros E; injection E as <- <-; try apply incl_refl; apply incl_appl, incl_refl.
  - intros E. injection E as <- <-. apply incl_appl, incl_refl.
Qed.
Lemma inv_loop_ends w cfg ps ds1 calls1 : forall n earlier lams cnt tr tr',
  inv_loop w cfg ps ds1 calls1 n earlier lams cnt tr = (Done true, tr') -> ends_well w cfg (lams, cnt) ds1 calls1 tr tr'.
Proof.
  induction n as [|n IH]; intros earlier lams cnt tr tr' E; [discriminate|]. cbn [inv_loop] in E.
  destruct (o_llm w tr _) as [sol|]; [|discriminate].
  assert (MORE : forall tr1 e r s, incl tr tr1 -> check_text w cfg (if c_double cfg then 2 else 1) sol lams cnt = (r, s) -> inv_loop w cfg ps ds1 calls1 n e (s_lams s) (s_count s) tr1 = (Done true, tr') -> ends_well w cfg (lams, cnt) ds1 calls1 tr tr').
  { intros tr1 e r s I CT E1. destruct (IH _ _ _ _ _ E1) as (t1 & m & inv & s' & l' & ds2 & calls2 & all & vc & t2 & X & Y & Z1 & Z2 & AF & Z). exists t1, m, inv, s', l', ds2, calls2, all, vc, t2. split; [exact X|]. split; [eapply incl_tran; eauto|]. split; [exact Z1|]. split; [exact Z2|]. split; [eapply (after_text _ _ (lams, cnt)); [exact CT|exact AF]|exact Z]. }
  assert (I0 : forall x, incl tr (tr ++ [x])) by (intros x; apply incl_appl, incl_refl).
  destruct (check_text w cfg _ sol lams cnt) as [[[]|x] s] eqn:CT; [|eapply MORE; [|reflexivity|exact E]; apply I0].
  match type of E with (match ?b with _ => _ end) = _ => destruct b as [[all vc]|x] eqn:B end; [|discriminate].
  apply bindR_ok in B as (ds2 & D2 & B). apply bindR_ok in B as (all' & PS & B). apply bindR_ok in B as (vc' & VC & B). injection B as -> ->.
  destruct (verify_with _ _ _ _ _ _) as [[[]|x] tr2] eqn:V; [| |discriminate].
  - injection E as <-. exists (tr ++ [EAsk {| m_prompt := InvPrompt ps; m_earlier := earlier |} sol]). eexists _, sol, s, (lams, cnt), ds2, (s_calls s), all, vc, tr2. split; [reflexivity|]. split; [apply I0|]. split; [apply in_or_app; right; left; reflexivity|]. split; [cbn; eauto|].
    split; [apply after_none|]. split; [repeat split; auto|]. auto.
  - eapply MORE; [|reflexivity|exact E]. eapply incl_tran; [apply I0|]. eapply verify_grows, V.
Qed.

Lemma ps_loop_ends w cfg : forall n earlier tr sol tr', ps_loop w cfg n earlier tr = (Done (Some sol), tr') ->
  exists m s ds1 calls1 tr1, In (EAsk m sol) tr1 /\ m_prompt m = PsPrompt /\ solution_of w cfg sol s ds1 calls1 /\ ends_well w cfg (names_of s) ds1 calls1 tr1 tr'.
Proof.
  induction n as [|n IH]; intros earlier tr sol tr' E; [discriminate|]. cbn [ps_loop] in E.
  destruct (o_llm w tr _) as [r|] eqn:O; [|discriminate].
  destruct (check_text w cfg 1 r [] []) as [[[]|x] s] eqn:CT; [|eauto].
  match type of E with (match ?b with _ => _ end) = _ => destruct b as [ds|x] eqn:D end; [|discriminate]. destruct (find _ ds) as [ps|]; [|discriminate].
  destruct (inv_loop _ _ _ _ _ _ _ _ _ _) as [[[]|x] tr2] eqn:L; [|eauto|discriminate]. injection E as -> ->.
  eexists _, s, ds, (s_calls s), (tr ++ [EAsk {| m_prompt := PsPrompt; m_earlier := earlier |} sol]). split; [apply in_or_app; right; left; reflexivity|]. split; [reflexivity|]. split; [repeat split; auto|]. eapply inv_loop_ends, L.
Qed.

(** ** What is shown to the model *)
Lemma solutions_app a b : solutions (a ++ b) = solutions a ++ solutions b.
Proof. unfold solutions. now rewrite flat_map_app. Qed.
Lemma shown_app tr x : shown tr -> (match x with EAsk m _ => m_earlier m = match m_prompt m with PsPrompt => solutions tr | InvPrompt _ => invariants tr end | _ => True end) -> shown (tr ++ [x]).
Proof.
  intros S1 S2 a m r b E. destruct (exists_last (l := EAsk m r :: b)) as (b' & y & Y); [discriminate|]. rewrite Y, app_assoc in E. apply app_inj_tail in E as [E X]. subst y.
  destruct b' as [|z b']; cbn in Y; injection Y as Y1 Y2.
  - subst x. rewrite app_nil_r in E. subst a. exact S2.
  - subst z. eapply S1, E.
Qed.
Lemma invariants_snoc a e : invariants (a ++ [e]) = match e with EAsk m r => match m_prompt m with PsPrompt => [] | _ => invariants a ++ [r] end | _ => invariants a end.
Proof. unfold invariants. rewrite fold_left_app. reflexivity. Qed.
Lemma verify_trace w cfg all calls vc tr r tr' : verify_with w cfg all calls vc tr = (r, tr') -> tr' = tr \/ exists f o, tr' = tr ++ [EVerify f o].
Proof.
  unfold verify_with, verify_smt, verify_rosette. destruct (c_method cfg).
  - intros E. injection E as <- <-. auto.
  - destruct (mapR (replace_in_calls calls) (rkt_fns (c_dsl cfg))), (mapR (replace_in_calls calls) all); intros E; injection E as <- <-; eauto.
  - intros E. injection E as <- <-. eauto.
Qed.
Lemma inv_loop_shown w cfg ps ds1 calls1 : forall n earlier lams cnt tr r tr', shown tr -> invariants tr = earlier ->
  inv_loop w cfg ps ds1 calls1 n earlier lams cnt tr = (r, tr') -> shown tr' /\ solutions tr' = solutions tr.
Proof.
  induction n as [|n IH]; intros earlier lams cnt tr r tr' H1 H2 E; cbn [inv_loop] in E; [injection E as _ <-; auto|].
  destruct (o_llm w tr _) as [sol|]; [|injection E as _ <-; auto].
  set (m := {| m_prompt := InvPrompt ps; m_earlier := earlier |}) in *.
  assert (S1 : shown (tr ++ [EAsk m sol])) by (apply shown_app; [exact H1|cbn; now symmetry]).
  assert (S2 : invariants (tr ++ [EAsk m sol]) = earlier ++ [sol]) by (rewrite invariants_snoc; cbn; now rewrite H2).
  assert (S3 : solutions (tr ++ [EAsk m sol]) = solutions tr) by (rewrite solutions_app; cbn; now rewrite app_nil_r).
  destruct (check_text w cfg _ sol lams cnt) as [[[]|x] s] eqn:CT; [|rewrite <- S3; eapply IH; eauto].
  match type of E with (match ?b with _ => _ end) = _ => destruct b as [[all vc]|x] eqn:B end; [|injection E as _ <-; auto].
  destruct (verify_with _ _ _ _ _ _) as [rv tr2] eqn:V.
  assert (W : shown tr2 /\ invariants tr2 = earlier ++ [sol] /\ solutions tr2 = solutions tr).
  { apply verify_trace in V as [->|(f & o & ->)]; [auto|]. split; [apply shown_app; auto|]. split; [rewrite invariants_snoc; exact S2|]. rewrite solutions_app. cbn. now rewrite app_nil_r. }
  destruct W as (W1 & W2 & W3). destruct rv as [[]|x]; [injection E as _ <-; auto| |injection E as _ <-; auto].
  rewrite <- W3. eapply IH; eauto.
Qed.
Lemma ps_loop_shown w cfg : forall n earlier tr r tr', shown tr -> solutions tr = earlier -> ps_loop w cfg n earlier tr = (r, tr') -> shown tr'.
Proof.
  induction n as [|n IH]; intros earlier tr r tr' H1 H2 E; cbn [ps_loop] in E; [injection E as _ <-; auto|].
  destruct (o_llm w tr _) as [sol|]; [|injection E as _ <-; auto].
  set (m := {| m_prompt := PsPrompt; m_earlier := earlier |}) in *.
  assert (S1 : shown (tr ++ [EAsk m sol])) by (apply shown_app; [exact H1|cbn; now symmetry]).
  assert (S3 : solutions (tr ++ [EAsk m sol]) = earlier ++ [sol]) by (rewrite solutions_app; cbn; now rewrite H2).
  destruct (check_text w cfg 1 sol [] []) as [[[]|x] s] eqn:CT; [|eapply IH; eauto].
  match type of E with (match ?b with _ => _ end) = _ => destruct b as [ds|x] end; [|injection E as _ <-; auto]. destruct (find _ ds) as [ps|]; [|injection E as _ <-; auto].
  destruct (inv_loop _ _ _ _ _ _ _ _ _ _) as [rv tr2] eqn:L. destruct (inv_loop_shown _ _ _ _ _ _ _ _ _ _ _ _ S1 (invariants_snoc _ _) L) as [W1 W2].
  destruct rv as [[]|x]; [injection E as _ <-; auto| |injection E as _ <-; auto]. eapply IH; [exact W1| |exact E]. now rewrite W2, S3.
Qed.

(** ** How often it is asked *)
Lemma count_app p a b : count p (a ++ b) = (count p a + count p b)%nat.
Proof. unfold count. now rewrite filter_app, app_length. Qed.
Lemma inv_loop_count w cfg ps ds1 calls1 : forall n earlier lams cnt tr r tr', inv_loop w cfg ps ds1 calls1 n earlier lams cnt tr = (r, tr') ->
  (count is_inv_ask tr' <= count is_inv_ask tr + n)%nat /\ count is_ps_ask tr' = count is_ps_ask tr.
Proof.
  induction n as [|n IH]; intros earlier lams cnt tr r tr' E; cbn [inv_loop] in E; [injection E as _ <-; split; [lia|reflexivity]|].
  destruct (o_llm w tr _) as [sol|]; [|injection E as _ <-; split; [lia|reflexivity]].
  set (m := {| m_prompt := InvPrompt ps; m_earlier := earlier |}) in *.
  assert (C1 : count is_inv_ask (tr ++ [EAsk m sol]) = (count is_inv_ask tr + 1)%nat) by (rewrite count_app; reflexivity).
  assert (C2 : count is_ps_ask (tr ++ [EAsk m sol]) = count is_ps_ask tr) by (rewrite count_app; cbn; lia).
  destruct (check_text w cfg _ sol lams cnt) as [[[]|x] s] eqn:CT; [|apply IH in E; lia].
  match type of E with (match ?b with _ => _ end) = _ => destruct b as [[all vc]|x] eqn:B end; [|injection E as _ <-; lia].
  destruct (verify_with _ _ _ _ _ _) as [rv tr2] eqn:V.
  assert (W : count is_inv_ask tr2 = (count is_inv_ask tr + 1)%nat /\ count is_ps_ask tr2 = count is_ps_ask tr).
  { apply verify_trace in V as [->|(f & o & ->)]; [auto|]. rewrite !(count_app _ _ [EVerify f o]). cbn. lia. }
  destruct rv as [[]|x]; [injection E as _ <-; lia| |injection E as _ <-; lia]. apply IH in E. lia.
Qed.
Lemma ps_loop_count w cfg : forall n earlier tr r tr', ps_loop w cfg n earlier tr = (r, tr') ->
  (count is_ps_ask tr' <= count is_ps_ask tr + n /\ count is_inv_ask tr' <= count is_inv_ask tr + n * c_max_inv cfg)%nat.
Proof.
  induction n as [|n IH]; intros earlier tr r tr' E; cbn [ps_loop] in E; [injection E as _ <-; lia|].
  destruct (o_llm w tr _) as [sol|]; [|injection E as _ <-; split; lia].
  set (m := {| m_prompt := PsPrompt; m_earlier := earlier |}) in *.
  assert (C1 : count is_ps_ask (tr ++ [EAsk m sol]) = (count is_ps_ask tr + 1)%nat) by (rewrite count_app; reflexivity).
  assert (C2 : count is_inv_ask (tr ++ [EAsk m sol]) = count is_inv_ask tr) by (rewrite count_app; cbn; lia).
  destruct (check_text w cfg 1 sol [] []) as [[[]|x] s] eqn:CT; [|apply IH in E; lia].
  match type of E with (match ?b with _ => _ end) = _ => destruct b as [ds|x] end; [|injection E as _ <-; lia]. destruct (find _ ds) as [ps|]; [|injection E as _ <-; lia].
  destruct (inv_loop _ _ _ _ _ _ _ _ _ _) as [rv tr2] eqn:L. apply inv_loop_count in L.
  destruct rv as [[]|x]; [injection E as _ <-; lia| |injection E as _ <-; lia]. apply IH in E. lia.
Qed.

(** ** Without a verifier *)
Lemma inv_loop_none w cfg ps ds1 calls1 : c_method cfg = VNone -> forall n earlier lams cnt tr tr', inv_loop w cfg ps ds1 calls1 n earlier lams cnt tr <> (Done true, tr').
Proof.
  intros M n earlier lams cnt tr tr' E. apply inv_loop_ends in E as (t1 & m & inv & s' & l' & ds2 & calls2 & all & vc & t2 & _ & _ & _ & _ & _ & _ & _ & _ & V). unfold verify_with in V. rewrite M in V. discriminate.
Qed.

(** ** What was verified when nothing is found *)
Definition turned_down (e : event) : Prop :=
  match e with EVerify f o => exists p, o = Some p /\ (p_code p <> 0%Z \/ first_line (p_out p) <> "(unsat)") | _ => True end.
Lemma inv_loop_fails w cfg ps ds1 calls1 : c_method cfg = VRosette -> forall n earlier lams cnt tr tr',
  inv_loop w cfg ps ds1 calls1 n earlier lams cnt tr = (Done false, tr') -> exists l, tr' = tr ++ l /\ Forall turned_down l /\ count is_ps_ask l = 0%nat.
Proof.
  intros ME. induction n as [|n IH]; intros earlier lams cnt tr tr' E; cbn [inv_loop] in E; [injection E as <-; exists []; rewrite app_nil_r; auto|].
  destruct (o_llm w tr _) as [sol|]; [|discriminate]. set (m := {| m_prompt := InvPrompt ps; m_earlier := earlier |}) in *.
  destruct (check_text w cfg _ sol lams cnt) as [[[]|x] s] eqn:CT.
  - match type of E with (match ?b with _ => _ end) = _ => destruct b as [[all vc]|x] end; [|discriminate].
    destruct (verify_with _ _ _ _ _ _) as [[[]|x] tr2] eqn:V; [discriminate| |discriminate]. destruct (IH _ _ _ _ _ E) as (l & -> & F & C).
    unfold verify_with in V. rewrite ME in V. unfold verify_rosette in V. destruct (mapR _ (rkt_fns _)) as [fs|]; [|discriminate]. destruct (mapR _ all) as [ds|]; [|discriminate]. cbv zeta in V.
    destruct (o_run w _ _) as [p|]; [|discriminate]. destruct (Z.eqb (p_code p) 0); [|discriminate]. injection V as U <-.
    exists (EAsk m sol :: EVerify {| v_dsl := fs; v_decls := ds; v_vc := vc |} (Some p) :: l). split; [rewrite <- !app_assoc; reflexivity|]. split; [|exact C].
    constructor; [exact Logic.I|]. constructor; [|exact F]. exists p. split; [reflexivity|]. right. intros X. rewrite X in U. discriminate.
  - destruct (IH _ _ _ _ _ E) as (l & -> & F & C). exists (EAsk m sol :: l). split; [rewrite <- !app_assoc; reflexivity|]. split; [constructor; [exact Logic.I|exact F]|exact C].
Qed.
Lemma ps_loop_fails w cfg : c_method cfg = VRosette -> forall n earlier tr tr',
  ps_loop w cfg n earlier tr = (Done None, tr') -> exists l, tr' = tr ++ l /\ Forall turned_down l /\ count is_ps_ask l = n.
Proof.
  intros ME. induction n as [|n IH]; intros earlier tr tr' E; cbn [ps_loop] in E; [injection E as <-; exists []; rewrite app_nil_r; auto|].
  destruct (o_llm w tr _) as [sol|]; [|discriminate]. set (m := {| m_prompt := PsPrompt; m_earlier := earlier |}) in *.
  destruct (check_text w cfg 1 sol [] []) as [[[]|x] s] eqn:CT.
  - match type of E with (match ?b with _ => _ end) = _ => destruct b as [ds|x] end; [|discriminate]. destruct (find _ ds) as [ps|]; [|discriminate].
    destruct (inv_loop _ _ _ _ _ _ _ _ _ _) as [[[]|x] tr2] eqn:L; [discriminate| |discriminate]. destruct (inv_loop_fails _ _ _ _ _ ME _ _ _ _ _ _ L) as (l1 & -> & F1 & C1). destruct (IH _ _ _ E) as (l & -> & F & C).
    exists (EAsk m sol :: l1 ++ l). split; [rewrite <- !app_assoc; reflexivity|]. split; [constructor; [exact Logic.I|apply Forall_app; auto]|].
    change (EAsk m sol :: l1 ++ l) with ([EAsk m sol] ++ l1 ++ l). rewrite !count_app, C1, C. reflexivity.
  - destruct (IH _ _ _ E) as (l & -> & F & C). exists (EAsk m sol :: l). split; [rewrite <- !app_assoc; reflexivity|]. split; [constructor; [exact Logic.I|exact F]|].
    change (EAsk m sol :: l) with ([EAsk m sol] ++ l). rewrite count_app, C. reflexivity.
Qed.
Lemma inv_loop_raises w cfg ps ds1 calls1 : forall n earlier lams cnt tr tr', inv_loop w cfg ps ds1 calls1 n earlier lams cnt tr <> (Raised LNotFound, tr').
Proof.
  induction n as [|n IH]; intros earlier lams cnt tr tr' E; cbn [inv_loop] in E; [discriminate|]. destruct (o_llm w tr _) as [sol|]; [|discriminate].
  destruct (check_text w cfg _ sol lams cnt) as [[[]|x] s]; [|exact (IH _ _ _ _ _ E)].
  match type of E with (match ?b with _ => _ end) = _ => destruct b as [[all vc]|x] end; [|discriminate].
  destruct (verify_with _ _ _ _ _ _) as [[[]|x] tr2] eqn:V; [discriminate|exact (IH _ _ _ _ _ E)|]. injection E as -> ->.
  unfold verify_with, verify_rosette, verify_smt in V. destruct (c_method cfg); [discriminate| |destruct (o_run _ _ _); discriminate].
  destruct (mapR _ (rkt_fns _)) as [fs|]; [|discriminate]. destruct (mapR _ all) as [ds|]; [|discriminate]. cbv zeta in V. destruct (o_run w _ _) as [p|]; [|discriminate]. destruct (Z.eqb (p_code p) 0); discriminate.
Qed.
Lemma ps_loop_raises w cfg : forall n earlier tr tr', ps_loop w cfg n earlier tr <> (Raised LNotFound, tr').
Proof.
  induction n as [|n IH]; intros earlier tr tr' E; cbn [ps_loop] in E; [discriminate|]. destruct (o_llm w tr _) as [sol|]; [|discriminate].
  destruct (check_text w cfg 1 sol [] []) as [[[]|x] s]; [|exact (IH _ _ _ E)].
  match type of E with (match ?b with _ => _ end) = _ => destruct b as [ds|x] end; [|discriminate]. destruct (find _ ds) as [ps|]; [|discriminate].
  destruct (inv_loop _ _ _ _ _ _ _ _ _ _) as [[[]|x] tr2] eqn:L; [discriminate|exact (IH _ _ _ E)|]. injection E as -> ->. exact (inv_loop_raises _ _ _ _ _ _ _ _ _ _ _ L).
Qed.
