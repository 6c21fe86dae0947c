(** Proofs about metalift/vc.py, part 6: executions and path conditions. *)

From Coq Require Import String List ZArith Bool Lia Arith.
From Verif Require Import Ast Semantics Dict IrProofs OptProofs2 UtilProofs PySem PyProofs PyProofs2 PyProofs3 LlModel VcModel VcSem VcProofs1 VcProofs2 VcProofs3 VcProofs4 VcProofs5.
Import ListNotations.
Local Open Scope list_scope.

Lemma typed_var_inv G U x t u : typed G U (mkVar x t) u -> In (x, t) U.
Proof.
  intros H. inversion H; subst; auto.
  match goal with H : _ = KAnd \/ _ = KOr |- _ => destruct H; discriminate end.
Qed.

Lemma in_smem x l : In x l -> smem x l = true.
Proof. intros IN. unfold smem. apply existsb_exists. exists x. split; auto. apply String.eqb_refl. Qed.

Section Runs.
Variables (I : interp) (G : sigs) (fn : string) (io : ty -> bool) (K : string -> known).
Variables (bs : list vblock) (first : string) (args : list (string * ty)) (uninterp : list string).
Hypothesis RESP : respects I G.
Hypothesis WF : wf_graph G K bs first args.
Notation asg := (flat_map assigned bs).
Notation bnames := (map k_name bs).
Notation hvs := (flat_map havocs bs).
Notation typed := (typed G).
Notation okstate := (okstate G).
Notation tru := (tru I).
Notation path := (path I).
Notation link := (link I).
Notation fulln := (full fn).
Notation glob_ok := (glob_ok G fn args asg bnames hvs).
Notation used := (used fn asg bnames).
Notation okwalk := (okwalk G fn args asg bnames hvs).
Notation NAMES := (wg_names _ _ _ _ _ WF).
Notation FRESH := (wg_fresh _ _ _ _ _ WF).
Notation e0 := (e_init fn args uninterp).
Variables (L : list vblock) (g : vglob) (d : dict vstate) (gf : vglob) (rank : string -> nat).
Hypothesis INV : Inv G fn io bs first args e0 L g d.
Hypothesis ALL : forall b, In b bs -> In b L.
Hypothesis RK : ranked L rank.
Hypothesis GF : glob_ok gf.
Hypothesis XF : ext g gf.
Hypothesis ARGS : forall x t, In (x, t) args -> In (mkVar (fulln x) t) (q_vars gf).
Notation info := (info G fn io bs args e0 g d).
Notation reaches := (reaches I (g_cells G) bs first args).

Lemma get_info b : In b bs -> exists g1 s0 z f, info b g1 s0 z f.
Proof. intros B. apply (iv_info _ _ _ _ _ _ _ _ _ _ INV), ALL, B. Qed.
Lemma fit_g r : fit (used gf) r -> fit (used g) r.
Proof. intros F x t IN. apply F, (ext_used _ _ _ _ _ XF), IN. Qed.
Lemma states_ok ps : incl ps bnames -> Forall (okstate (used g)) (map (vst d) ps).
Proof.
  intros P. rewrite Forall_map, Forall_forall. intros x X. destruct (block_of bs x (P x X)) as (c & C & <-).
  destruct (get_info c C) as (g1 & s0 & z & f & H). apply (info_okstate I G fn io K bs first args RESP WF e0 _ _ _ _ _ _ _ C H).
Qed.

Lemma rank_inj b c : In b bs -> In c bs -> rank (k_name b) = rank (k_name c) -> b = c.
Proof. intros B C E. apply (by_name G K bs first args WF); auto. apply (rk_inj _ _ RK); auto. Qed.
Lemma pred_block b p : In b bs -> In p (k_preds b) -> exists c, In c bs /\ k_name c = p /\ (rank p < rank (k_name b))%nat /\ In (k_name b) (k_succs c).
Proof.
  intros B P. destruct (rk_preds _ _ RK b p (ALL b B) P) as [_ R]. destruct (block_of bs p) as (c & C & <-); [apply (wg_closed _ _ _ _ _ WF b p B); auto|].
  exists c. split; auto. split; auto. split; auto. apply (wg_edges _ _ _ _ _ WF c b C B). exact P.
Qed.
Lemma first_block : exists b, In b bs /\ k_name b = first.
Proof. destruct (wg_first _ _ _ _ _ WF) as (b & B & E & _). eauto. Qed.
Lemma first_preds b : In b bs -> (k_preds b = [] <-> k_name b = first).
Proof.
  intros B. split.
  - intros P. destruct (string_dec (k_name b) first); auto. exfalso. eapply (wg_preds _ _ _ _ _ WF); eauto.
  - intros E. destruct (wg_first _ _ _ _ _ WF) as (c & C & EC & P). now rewrite (by_name G K bs first args WF b c B C) by congruence.
Qed.
Lemma first_min : forall n b, In b bs -> rank (k_name b) = n -> (rank first <= n)%nat.
Proof.
  induction n as [n IH] using lt_wf_ind. intros b B E. destruct (k_preds b) as [|p ps] eqn:P.
  - apply first_preds in P; auto. rewrite <- P. lia.
  - destruct (pred_block b p B) as (c & C & EC & R & _); [rewrite P; now left|]. rewrite <- EC in R. specialize (IH _ ltac:(rewrite <- E; exact R) c C eq_refl). lia.
Qed.

(** the path condition of a block holds *)
Definition T (r : env) (b : vblock) : Prop := path r (vst d (k_name b)).
Lemma T_walk r b g1 s0 z f : info b g1 s0 z f -> (T r b <-> path r (z_st z)).
Proof. intros H. unfold T. rewrite (in_vst _ _ _ _ _ _ _ _ _ _ _ _ _ H). reflexivity. Qed.
Lemma T_start r b g1 s0 z f : In b bs -> info b g1 s0 z f -> T r b -> path r s0.
Proof.
  intros B H TB. apply (T_walk _ _ _ _ _ _ H) in TB. destruct (info_walk I G fn io K bs first args RESP WF e0 _ _ _ _ _ _ _ B H) as (_ & _ & _ & _ & (l & E) & _).
  unfold VcProofs2.path in *. rewrite E in TB. now apply Forall_app in TB.
Qed.
Lemma start_merge b g1 s0 z f : In b bs -> info b g1 s0 z f -> k_name b <> first -> merge_vstates (map (vst d) (k_preds b)) = Ok s0.
Proof.
  intros B H N. pose proof (in_start _ _ _ _ _ _ _ _ _ _ _ _ _ H) as ST. unfold start in ST. destruct (k_preds b) eqn:P; auto. apply first_preds in P; [contradiction | auto].
Qed.
Lemma preds_closed b : In b bs -> incl (k_preds b) bnames.
Proof. intros B x X. apply (wg_closed _ _ _ _ _ WF b x B). auto. Qed.

Lemma pred_path r b g1 s0 z f : fit (used gf) r -> In b bs -> info b g1 s0 z f -> k_name b <> first ->
  (path r s0 <-> exists c, In c bs /\ In (k_name c) (k_preds b) /\ T r c).
Proof.
  intros FIT B H N. pose proof (start_merge _ _ _ _ _ B H N) as M.
  destruct (merge_vstates_ok I G RESP (used g) _ _ M) as (_ & P & _); [apply (used_nodup G fn args asg bnames hvs NAMES FRESH), INV | apply states_ok, preds_closed, B|].
  rewrite (P r (fit_g r FIT)). split.
  - intros (s & IN & PS). apply in_map_iff in IN as (x & <- & IN). destruct (pred_block b x B IN) as (c & C & <- & _). exists c. auto.
  - intros (c & C & IN & PS). exists (vst d (k_name c)). split; auto. now apply in_map.
Qed.

(** two successors of a block do not both have a path condition that holds *)
Lemma opposite_false r b c c' m t t' : fit (used gf) r -> In b bs -> In c bs -> In c' bs ->
  k_preds c = [k_name b] -> k_preds c' = [k_name b] -> k_instrs c = JAssume m :: t -> k_instrs c' = JAssume (MNot m) :: t' -> T r c -> T r c' -> False.
Proof.
  intros FIT B C C' P P' E E' TC TC'.
  destruct (get_info c C) as (g1 & s0 & z & f & H). destruct (get_info c' C') as (g1' & s0' & z' & f' & H').
  apply (T_walk _ _ _ _ _ _ H) in TC. apply (T_walk _ _ _ _ _ _ H') in TC'.
  pose proof (in_start _ _ _ _ _ _ _ _ _ _ _ _ _ H) as S0. pose proof (in_start _ _ _ _ _ _ _ _ _ _ _ _ _ H') as S0'. unfold start in S0, S0'. rewrite P in S0. rewrite P' in S0'.
  assert (s0 = s0') by congruence. subst s0'. clear S0 S0'.
  pose proof (in_steps _ _ _ _ _ _ _ _ _ _ _ _ _ H) as V. pose proof (in_steps _ _ _ _ _ _ _ _ _ _ _ _ _ H') as V'.
  pose proof (okwalk_start G fn bs args _ _ (in_glob _ _ _ _ _ _ _ _ _ _ _ _ _ H) (in_state _ _ _ _ _ _ _ _ _ _ _ _ _ H)) as OW.
  pose proof (okwalk_start G fn bs args _ _ (in_glob _ _ _ _ _ _ _ _ _ _ _ _ _ H') (in_state _ _ _ _ _ _ _ _ _ _ _ _ _ H')) as OW'.
  destruct (wg_block _ _ _ _ _ WF c C) as (_ & k & O & _). destruct (wg_block _ _ _ _ _ WF c' C') as (_ & k' & O' & _).
  pose proof (in_assigned bs c C) as IA. pose proof (in_havocs bs c C) as IV. pose proof (in_assigned bs c' C') as IA'. pose proof (in_havocs bs c' C') as IV'.
  rewrite E in *. rewrite E' in *. cbn [vsteps ok_instrs] in *. cbn [assigned_all havocs_all flat_map assigned_in havocs_in app] in IA, IV, IA', IV'.
  ok V z1 V1. ok V' z1' V1'.
  destruct (ok_instr G (K (k_name c)) (JAssume m)) as [k1|] eqn:O1; [|discriminate]. destruct (ok_instr G (K (k_name c')) (JAssume (MNot m))) as [k1'|] eqn:O1'; [|discriminate].
  destruct (vstep_ok G fn io args asg bnames hvs FRESH _ _ _ _ _ O1 V1 OW) as (OW1 & _); [intros ? [] | intros ? []|].
  destruct (vstep_ok G fn io args asg bnames hvs FRESH _ _ _ _ _ O1' V1' OW') as (OW1' & _); [intros ? [] | intros ? []|].
  destruct (vsteps_ok G fn io args asg bnames hvs FRESH _ _ _ _ _ O V OW1 IA IV) as (OWz & Xz & (l & L1 & _) & _).
  destruct (vsteps_ok G fn io args asg bnames hvs FRESH _ _ _ _ _ O' V' OW1' IA' IV') as (_ & _ & (l' & L1' & _) & _).
  cbn [vstep z_st eval_minst] in V1, V1'. ok V1 e Ev. injection V1 as <-. ok V1' e' Ev'. injection V1' as <-. ok Ev' e2 Ev2. assert (e2 = e) by congruence. subst e2.
  cbn in O1. destruct (ok_min G (K (k_name c)) m TBool) eqn:OM; [|discriminate].
  assert (TE : typed (used g1) e TBool) by (eapply (min_typed G (used g1)); [apply H | exact OM | exact Ev]).
  unfold mkNot in Ev'. ok Ev' u CT. injection Ev' as <-.
  cbn in L1, L1'. unfold VcProofs2.path in TC, TC'. rewrite L1 in TC. rewrite L1' in TC'. apply Forall_app in TC as [TC _]. apply Forall_app in TC as [_ TC].
  apply Forall_app in TC' as [TC' _]. apply Forall_app in TC' as [_ TC']. apply Forall_inv in TC, TC'. unfold VcProofs2.tru in TC, TC'. cbn in TC'. rewrite TC in TC'. discriminate.
Qed.
Lemma excl r b c c' : fit (used gf) r -> In b bs -> In c bs -> In c' bs -> In (k_name c) (k_succs b) -> In (k_name c') (k_succs b) -> T r c -> T r c' -> c = c'.
Proof.
  intros FIT B C C' S1 S2 TC TC'. destruct (string_dec (k_name c) (k_name c')) as [E|N]; [now apply (by_name G K bs first args WF)|]. exfalso.
  assert (NE : c <> c') by (intros ->; now apply N). destruct (wg_branch _ _ _ _ _ WF b c c' B C C' S1 S2 NE) as (P & P' & m & t & t' & [[E E']|[E E']]).
  - exact (opposite_false r b c c' m t t' FIT B C C' P P' E E' TC TC').
  - exact (opposite_false r b c' c m t' t FIT B C' C P' P E' E TC' TC).
Qed.

Lemma T_pred r b : fit (used gf) r -> In b bs -> k_name b <> first -> T r b -> exists c, In c bs /\ In (k_name c) (k_preds b) /\ T r c /\ (rank (k_name c) < rank (k_name b))%nat /\ In (k_name b) (k_succs c).
Proof.
  intros FIT B N TB. destruct (get_info b B) as (g1 & s0 & z & f & H). apply (T_start _ _ _ _ _ _ B H) in TB. apply (pred_path _ _ _ _ _ _ FIT B H N) in TB as (c & C & P & TC).
  exists c. split; auto. split; auto. split; auto. destruct (pred_block b _ B P) as (c' & C' & E & R & S1). rewrite (by_name G K bs first args WF c' c C' C E) in S1. auto.
Qed.

Lemma follow r : fit (used gf) r -> forall n p q, In p bs -> In q bs -> T r p -> T r q -> rank (k_name q) = n -> (rank (k_name p) < n)%nat ->
  exists s, In s bs /\ In (k_name s) (k_succs p) /\ T r s /\ (rank (k_name s) <= n)%nat.
Proof.
  intros FIT. induction n as [n IH] using lt_wf_ind. intros p q P Q TP TQ E LT.
  assert (NF : k_name q <> first) by (intros X; rewrite X in E; pose proof (first_min _ p P eq_refl); lia).
  destruct (T_pred r q FIT Q NF TQ) as (u & U & _ & TU & RU & SU).
  destruct (lt_eq_lt_dec (rank (k_name u)) (rank (k_name p))) as [[LU|EU]|GU].
  - exfalso. destruct (IH (rank (k_name p)) LT u p U P TU TP eq_refl LU) as (s & S1 & SS & TS & RS).
    assert (s = q) by (eapply (excl r u s q); eauto). subst s. lia.
  - rewrite (rank_inj u p U P EU) in SU. exists q. split; auto. split; auto. split; auto. lia.
  - rewrite E in RU. destruct (IH (rank (k_name u)) RU p u P U TP TU eq_refl GU) as (s & S1 & SS & TS & RS). exists s. split; auto. split; auto. split; auto. lia.
Qed.

Lemma uniq_lt r c p q : fit (used gf) r -> In c bs -> In p bs -> In q bs -> In (k_name p) (k_preds c) -> In (k_name q) (k_preds c) -> T r p -> T r q ->
  (rank (k_name p) < rank (k_name q))%nat -> False.
Proof.
  intros FIT C P Q PP PQ TP TQ LT. destruct (follow r FIT _ p q P Q TP TQ eq_refl LT) as (s & S1 & SS & TS & RS).
  destruct (rk_preds _ _ RK c _ (ALL c C) PQ) as [_ RQ].
  assert (NE : s <> c) by (intros ->; lia).
  assert (SC : In (k_name c) (k_succs p)) by (apply (wg_edges _ _ _ _ _ WF p c P C); auto).
  destruct (wg_branch _ _ _ _ _ WF p s c P S1 C SS SC NE) as (_ & PC & _). rewrite PC in PQ. destruct PQ as [E|[]]. rewrite E in LT. lia.
Qed.
Lemma uniq r c p q : fit (used gf) r -> In c bs -> In p bs -> In q bs -> In (k_name p) (k_preds c) -> In (k_name q) (k_preds c) -> T r p -> T r q -> p = q.
Proof.
  intros FIT C P Q PP PQ TP TQ. destruct (lt_eq_lt_dec (rank (k_name p)) (rank (k_name q))) as [[LT|E]|LT].
  - exfalso. exact (uniq_lt r c p q FIT C P Q PP PQ TP TQ LT).
  - now apply rank_inj.
  - exfalso. exact (uniq_lt r c q p FIT C Q P PQ PP TQ TP LT).
Qed.

(** the state at the start of a block agrees with a store that its predecessor leaves *)
Lemma merge_link r b c g1 s0 z f k s : fit (used gf) r -> In b bs -> In c bs -> In (k_name c) (k_succs b) -> info c g1 s0 z f ->
  T r b -> link r k (vst d (k_name b)) s -> link r k s0 s /\ path r s0.
Proof.
  intros FIT B C S1 H TB LK. assert (P : In (k_name b) (k_preds c)) by (apply (wg_edges _ _ _ _ _ WF b c B C); auto).
  assert (N : k_name c <> first) by (intros E; apply (first_preds c C) in E; rewrite E in P; destruct P).
  pose proof (start_merge _ _ _ _ _ C H N) as M.
  destruct (merge_vstates_ok I G RESP (used g) _ _ M) as (_ & _ & LM & _); [apply (used_nodup G fn args asg bnames hvs NAMES FRESH), INV | apply states_ok, preds_closed, C|].
  split; [|apply (pred_path _ _ _ _ _ _ FIT C H N); eauto].
  apply (LM r (vst d (k_name b)) k s (fit_g r FIT)); auto; [now apply in_map|].
  intros s' IN PS. apply in_map_iff in IN as (x & <- & IN). destruct (pred_block c x C IN) as (q & Q & <- & _).
  now rewrite (uniq r c q b FIT C Q B IN P PS TB).
Qed.
Lemma link_vc r k s v c : link r k s c <-> link r k (set_vc s v) c.
Proof. split; intros [A B]; constructor; auto. Qed.

Lemma known_edge b c : In b bs -> In c (k_succs b) -> exists k, ok_instrs G (K (k_name b)) (k_instrs b) = Some k /\ incl (fst (K c)) (fst k) /\ incl (snd (K c)) (snd k).
Proof. intros B C. destruct (wg_block _ _ _ _ _ WF b B) as (_ & k & O & H). exists k. split; auto. Qed.

(** a path condition that holds comes from an execution *)
Lemma path_run r : fit (used gf) r -> forall n b g1 s0 z f, rank (k_name b) = n -> In b bs -> info b g1 s0 z f -> path r s0 ->
  exists s, reaches (k_name b) s /\ link r (K (k_name b)) s0 s.
Proof.
  intros FIT. induction n as [n IH] using lt_wf_ind. intros b g1 s0 z f E B H P.
  destruct (string_dec (k_name b) first) as [F|N].
  - pose proof (in_start _ _ _ _ _ _ _ _ _ _ _ _ _ H) as ST. unfold start in ST. rewrite (proj2 (first_preds b B) F) in ST. subst s0.
    exists {| cr := fun x => if smem x (map fst args) then r (fulln x) else None; cm := fun _ => None |}. rewrite F.
    assert (IU : forall x t, In (x, t) args -> In (fulln x, t) (used gf)).
    { intros x t X. pose proof (iv_e0 _ _ _ _ _ _ _ _ _ _ INV) as OS. pose proof (init_reg G fn K bs first args uninterp WF x t X) as D.
      pose proof (okdict_get G _ _ _ _ _ _ (ok_regs _ _ _ OS) D (wg_args _ _ _ _ _ WF x t X)) as TY. apply typed_var_inv in TY. now apply (ext_used _ _ _ _ _ XF). }
    split.
    + apply reach_first. repeat split; cbn; auto.
      * intros x t X. rewrite (in_smem _ _) by (apply in_map_iff; exists (x, t); auto). apply FIT, IU, X.
      * intros x X. destruct (smem x (map fst args)) eqn:SM; auto. apply smem_in in SM. contradiction.
    + rewrite (wg_known _ _ _ _ _ WF). constructor; cbn [fst snd]; [|intros x []]. intros x X. pose proof X as X'. apply in_map_iff in X' as ([y t] & <- & IN). cbn [fst] in *.
      destruct (FIT _ _ (IU y t IN)) as (v & V & _). exists (mkVar (fulln y) t), v. split; [apply (init_reg G fn K bs first args uninterp WF), IN|]. cbn.
      rewrite (in_smem _ _) by auto. auto.
  - apply (pred_path _ _ _ _ _ _ FIT B H N) in P as (c & C & PC & TC). destruct (pred_block b _ B PC) as (c' & C' & EC & R & SC).
    rewrite (by_name G K bs first args WF c' c C' C EC) in SC. clear c' C' EC.
    destruct (get_info c C) as (g2 & s2 & z2 & f2 & H2). rewrite E in R.
    destruct (IH _ R c g2 s2 z2 f2 eq_refl C H2 (T_start _ _ _ _ _ _ C H2 TC)) as (s & RS & LK).
    destruct (known_edge c (k_name b) C SC) as (k & O & K1 & K2).
    destruct (info_walk I G fn io K bs first args RESP WF e0 _ _ _ _ _ _ _ C H2) as (OW & X1 & _ & X2 & _).
    destruct (vsteps_forward I G fn io args asg bnames hvs RESP FRESH _ _ _ _ _ r s O (in_steps _ _ _ _ _ _ _ _ _ _ _ _ _ H2)) as (s' & EX & LK').
    { apply okwalk_start; apply H2. }
    { apply in_assigned, C. } { apply in_havocs, C. }
    { intros x t IN. apply FIT, (ext_used _ _ _ _ _ XF), (ext_used _ _ _ _ _ (in_ext _ _ _ _ _ _ _ _ _ _ _ _ _ H2)), (ext_used _ _ _ _ _ X2), IN. }
    { exact LK. } { now apply (T_walk _ _ _ _ _ _ H2). }
    exists s'. split; [eapply reach_next; eauto|].
    apply (link_incl _ _ _ (K (k_name b))) in LK'; auto.
    apply (merge_link r c b g1 s0 z f _ s' FIT C B SC H TC). rewrite (in_vst _ _ _ _ _ _ _ _ _ _ _ _ _ H2). now apply link_vc.
Qed.

Definition default (t : ty) : val := match t with TInt => VInt 0 | TBool => VBool false | _ => VList [] end.
Lemma default_ok t : simple t = true -> of_type t (default t) = true.
Proof. intros H. destruct t; try discriminate; try reflexivity; cbn in H; repeat match type of H with match ?x with _ => _ end = _ => destruct x; try discriminate end; reflexivity. Qed.
Lemma used_simple x t : In (x, t) (used gf) -> simple t = true.
Proof.
  intros IN. apply (used_in G fn args asg bnames hvs gf) in IN as [IN PR]; auto. destruct GF as [F _]. rewrite Forall_forall in F. destruct (F _ IN) as (y & u & [= <- <-] & C).
  destruct C as [(a & -> & A)|[(a & -> & A & B)|[(b & -> & B & ->)|(p & m & -> & _ & _ & B)]]].
  - apply (wg_simple _ _ _ _ _ WF a). left. apply (wg_args _ _ _ _ _ WF), A.
  - apply (wg_simple _ _ _ _ _ WF a). auto.
  - reflexivity.
  - apply (wg_simple _ _ _ _ _ WF p). auto.
Qed.

(** an execution gives values to the variables for which the path condition holds *)
Lemma run_path x s : reaches x s -> exists b, In b bs /\ k_name b = x /\
  forall g1 s0 z f, info b g1 s0 z f -> exists r, fit (used gf) r /\ path r s0 /\ link r (K x) s0 s.
Proof.
  induction 1 as [s IN|b c s s' B R IH EX SC].
  - destruct first_block as (b & B & E). exists b. split; auto. split; auto. intros g1 s0 z f H.
    pose proof (in_start _ _ _ _ _ _ _ _ _ _ _ _ _ H) as ST. unfold start in ST. rewrite (proj2 (first_preds b B) E) in ST. subst s0.
    set (ar := map (fun p : string * ty => (fulln (fst p), cr s (fst p))) args).
    set (r := fun x => match dget ar x with Some v => v | None => match dget (used gf) x with Some t => Some (default t) | None => None end end : option val).
    assert (ND : NoDup (dkeys ar)).
    { unfold ar, dkeys. rewrite map_map. cbn. rewrite <- (map_map fst fulln). pose proof (arg_nodup G K bs first args WF) as N.
      revert N. generalize (map fst args). induction l as [|a l IH]; intros N; cbn; constructor; inversion N as [|? ? NI N']; subst; auto.
      intros X. apply in_map_iff in X as (y & EY & X). apply full_inj in EY. subst. contradiction. }
    assert (RA : forall x t, In (x, t) args -> r (fulln x) = cr s x).
    { intros x t X. unfold r. rewrite (nodup_dget _ ar (fulln x) (cr s x)); auto. unfold ar. apply in_map_iff. exists (x, t). auto. }
    destruct IN as (I1 & I2 & I3).
    assert (FIT : fit (used gf) r).
    { intros x t X. destruct (dget ar x) as [v|] eqn:D.
      - apply PyProofs3.dget_in in D. unfold ar in D. apply in_map_iff in D as ([y u] & [= <- <-] & Y). destruct (I1 y u Y) as (w & W & OT). exists w.
        rewrite (RA y u Y). split; auto. assert (u = t); [|congruence].
        pose proof (used_nodup G fn args asg bnames hvs NAMES FRESH gf GF) as NU.
        assert (IU : In (fulln y, u) (used gf)).
        { pose proof (iv_e0 _ _ _ _ _ _ _ _ _ _ INV) as OS. pose proof (init_reg G fn K bs first args uninterp WF y u Y) as D.
          pose proof (okdict_get G _ _ _ _ _ _ (ok_regs _ _ _ OS) D (wg_args _ _ _ _ _ WF y u Y)) as TY. apply typed_var_inv in TY. now apply (ext_used _ _ _ _ _ XF). }
        pose proof (nodup_dget _ _ _ _ NU X). pose proof (nodup_dget _ _ _ _ NU IU). congruence.
      - exists (default t). unfold r. rewrite D, (nodup_dget _ _ _ _ (used_nodup G fn args asg bnames hvs NAMES FRESH gf GF) X). split; auto. apply default_ok. eapply used_simple; eauto. }
    exists r. split; auto. split.
    + unfold VcProofs2.path. cbn. constructor; [reflexivity|]. rewrite Forall_forall. intros e X. apply in_map_iff in X as (? & <- & _). reflexivity.
    + rewrite (wg_known _ _ _ _ _ WF). constructor; cbn [fst snd]; [|intros x []]. intros x X. apply in_map_iff in X as ([y t] & <- & Y). cbn [fst].
      destruct (I1 y t Y) as (v & V & _). exists (mkVar (fulln y) t), v. split; [apply (init_reg G fn K bs first args uninterp WF), Y|]. cbn. rewrite (RA y t Y). auto.
  - destruct IH as (b' & B' & E & IH). rewrite (by_name G K bs first args WF b' b B' B E) in *. clear b' B' E.
    destruct (block_of bs c) as (cb & C & <-); [apply (wg_closed _ _ _ _ _ WF b c B); auto|]. exists cb. split; auto. split; auto. intros g1 s0 z f H.
    destruct (get_info b B) as (g2 & s2 & z2 & f2 & H2). destruct (IH _ _ _ _ H2) as (r & FIT & P & LK).
    destruct (known_edge b (k_name cb) B SC) as (k & O & K1 & K2).
    destruct (info_walk I G fn io K bs first args RESP WF e0 _ _ _ _ _ _ _ B H2) as (OW & X1 & _ & X2 & _).
    destruct (vsteps_backward I G fn io args asg bnames hvs RESP NAMES FRESH gf GF _ _ _ _ _ r s s' O (in_steps _ _ _ _ _ _ _ _ _ _ _ _ _ H2)) as (r' & FIT' & _ & LK' & P').
    { apply okwalk_start; apply H2. }
    { apply in_assigned, B. } { apply in_havocs, B. }
    { eapply ext_trans; [exact X2|]. eapply ext_trans; [apply H2 | exact XF]. }
    { exact FIT. } { exact LK. } { exact P. } { exact EX. }
    exists r'. split; auto. apply (link_incl _ _ _ (K (k_name cb))) in LK'; auto.
    assert (TB : T r' b) by (now apply (T_walk _ _ _ _ _ _ H2)).
    assert (LK2 : link r' (K (k_name cb)) (vst d (k_name b)) s') by (rewrite (in_vst _ _ _ _ _ _ _ _ _ _ _ _ _ H2); now apply link_vc).
    destruct (merge_link r' b cb g1 s0 z f _ s' FIT' B C SC H TB LK2). auto.
Qed.

(** ** The condition *)

Lemma choose_info : forall l, incl l bs -> exists fg fs fz ff, forall b, In b l -> info b (fg (k_name b)) (fs (k_name b)) (fz (k_name b)) (ff (k_name b)).
Proof.
  induction l as [|b l IH]; intros IN.
  - exists (fun _ => g), (fun _ => e0), (fun _ => {| z_glob := g; z_st := e0; z_assigns := []; z_asserts := [] |}), (fun _ => (Atom PNone, g)). intros b [].
  - destruct IH as (fg & fs & fz & ff & H); [intros x X; apply IN; now right|]. destruct (get_info b (IN b (or_introl eq_refl))) as (g1 & s0 & z & f & HB).
    exists (fun x => if String.eqb x (k_name b) then g1 else fg x), (fun x => if String.eqb x (k_name b) then s0 else fs x),
      (fun x => if String.eqb x (k_name b) then z else fz x), (fun x => if String.eqb x (k_name b) then f else ff x).
    intros c C. destruct (String.eqb_spec (k_name c) (k_name b)) as [E|N].
    + now rewrite (by_name G K bs first args WF c b (IN c C) (IN b (or_introl eq_refl)) E).
    + destruct C as [<-|C]; [congruence | auto].
Qed.

Section Chosen.
Variables (fg : string -> vglob) (fs : string -> vstate) (fz : string -> walk) (ff : string -> expr * vglob).
Hypothesis HF : forall b, In b bs -> info b (fg (k_name b)) (fs (k_name b)) (fz (k_name b)) (ff (k_name b)).

Lemma fit_used_all r : fit (allv gf) r -> fit (used gf) r.
Proof. intros F x t IN. apply F, (used_all fn asg bnames), IN. Qed.

Lemma vc_of b : In b bs -> w_vc (vst d (k_name b)) = Some (fst (ff (k_name b))).
Proof. intros B. rewrite (in_vst _ _ _ _ _ _ _ _ _ _ _ _ _ (HF b B)). reflexivity. Qed.

Definition equations (r : env) (b : vblock) : Prop :=
  forall x e, dget (z_assigns (fz (k_name b))) x <> None -> dget (w_regs (z_st (fz (k_name b)))) x = Some e -> r (fulln x) = eval I r e.
Lemma block_vc r b : In b bs -> fit (allv gf) r ->
  (tru r (fst (ff (k_name b))) <->
   (r (fulln (k_name b)) = Some (VBool true) <->
    (equations r b -> T r b -> (forall c, In c (k_succs b) -> r (fulln c) = Some (VBool true)) /\ Forall (tru r) (z_asserts (fz (k_name b)))))).
Proof.
  intros B FIT. pose proof (HF b B) as H. destruct (info_walk I G fn io K bs first args RESP WF e0 _ _ _ _ _ _ _ B H) as (OW & _).
  pose proof (in_form _ _ _ _ _ _ _ _ _ _ _ _ _ H) as FM. pose proof (in_ext _ _ _ _ _ _ _ _ _ _ _ _ _ H) as XX. rewrite (T_walk r _ _ _ _ _ H). unfold equations.
  destruct (ff (k_name b)) as [e g'].
  destruct (form_vc_ok I G fn io args asg bnames hvs RESP _ _ _ _ _ FM OW) as (_ & _ & _ & _ & S1).
  { now apply in_map. } { intros x S1. apply (wg_closed _ _ _ _ _ WF b x B). auto. }
  apply S1. intros x t IN. apply FIT, (ext_all _ _ XF), (ext_all _ _ XX), IN.
Qed.
Lemma vc_typed b : In b bs -> typed (allv gf) (fst (ff (k_name b))) TBool.
Proof.
  intros B. destruct (info_walk I G fn io K bs first args RESP WF e0 _ _ _ _ _ _ _ B (HF b B)) as (_ & _ & _ & _ & _ & TY & _).
  eapply typed_incl; [|exact TY]. intros q Q. apply (ext_all _ _ XF), (ext_all _ _ (in_ext _ _ _ _ _ _ _ _ _ _ _ _ _ (HF b B))), Q.
Qed.
Lemma block_var r b : In b bs -> fit (allv gf) r -> exists v, r (fulln (k_name b)) = Some (VBool v).
Proof.
  intros B FIT. destruct (info_walk I G fn io K bs first args RESP WF e0 _ _ _ _ _ _ _ B (HF b B)) as (_ & _ & _ & _ & _ & _ & V).
  assert (V' : In (mkVar (fulln (k_name b)) TBool) (q_vars gf)) by (apply (ext_vars _ _ XF), (ext_vars _ _ (in_ext _ _ _ _ _ _ _ _ _ _ _ _ _ (HF b B))), V).
  apply (allv_in G fn args asg bnames hvs gf) in V'; auto. destruct (FIT _ _ V') as (v & E & O). destruct (bool_inv _ O) as (bb & ->). eauto.
Qed.

Notation body := (Node KImplies TBool [Node KAnd TBool (map (fun p => match w_vc (vst d (fst p)) with Some e => e | None => Atom PNone end)
                 (sort_by (map (fun b => (k_name b, tt)) bs))); mkVar (fulln first) TBool]).

Lemma body_eval r : fit (allv gf) r ->
  (eval I r body = Some (VBool true) <-> ((forall b, In b bs -> tru r (fst (ff (k_name b)))) -> r (fulln first) = Some (VBool true))).
Proof.
  intros FIT. set (l := map (fun p => match w_vc (vst d (fst p)) with Some e => e | None => Atom PNone end) (sort_by (map (fun b => (k_name b, tt)) bs))).
  assert (LI : forall e, In e l <-> exists b, In b bs /\ e = fst (ff (k_name b))).
  { intros e. unfold l. rewrite in_map_iff. split.
    - intros ([x []] & E & IN). apply (proj1 (sort_in _ _ _)) in IN. apply in_map_iff in IN as (b & [= <-] & B). exists b. split; auto. cbn [fst] in E. now rewrite (vc_of b B) in E.
    - intros (b & B & ->). exists (k_name b, tt). cbn [fst]. rewrite (vc_of b B). split; auto. apply sort_in, in_map_iff. eauto. }
  assert (LT : Forall (fun e => typed (allv gf) e TBool) l) by (rewrite Forall_forall; intros e E; apply LI in E as (b & B & ->); apply vc_typed, B).
  destruct first_block as (fb & FB & FE).
  assert (LN : l <> []) by (intros E; assert (X : In (fst (ff (k_name fb))) l) by (apply LI; eauto); rewrite E in X; destruct X).
  pose proof (and_tru I G RESP _ r l FIT LN LT) as AT.
  assert (TA : typed (allv gf) (Node KAnd TBool l) TBool) by (apply typed_andor; auto).
  destruct (typed_bool I G RESP _ r _ FIT TA) as (a & EA). destruct (block_var r fb FB FIT) as (v & EV). rewrite FE in EV.
  assert (A1 : a = true <-> forall b, In b bs -> tru r (fst (ff (k_name b)))).
  { unfold VcProofs2.tru at 1 in AT. rewrite EA in AT. rewrite Forall_forall in AT. split.
    - intros -> b B. apply AT; auto. apply LI. eauto.
    - intros H. assert (X : Some (VBool a) = Some (VBool true)) by (apply AT; intros e E; apply LI in E as (b & B & ->); auto). congruence. }
  cbn [eval mapO]. change (eval I r (mkVar (fulln first) TBool)) with (r (fulln first)). unfold eval in EA |- *. fold (eval I r) in EA |- *. rewrite EV.
  cbn in EA |- *. rewrite EA. cbn. destruct a, v; cbn; intuition congruence.
Qed.

(** ** No violation: the condition is valid *)

Lemma assumes_after pre m post : assumes_first (pre ++ JAssert m :: post) = true -> forallb (fun i => negb (is_assume i)) post = true.
Proof.
  induction pre as [|i pre IH]; cbn [app assumes_first]; auto. destruct i; auto. intros H.
  rewrite forallb_app in H. apply andb_true_iff in H as [_ H]. cbn in H. exact H.
Qed.

(** the walk up to an assertion, and from there on *)
Lemma split_walk b pre m post : In b bs -> k_instrs b = pre ++ JAssert m :: post ->
  exists k1 z1 e l, ok_instrs G (K (k_name b)) pre = Some k1 /\ ok_min G k1 m TBool = true /\
    vsteps fn io pre {| z_glob := fg (k_name b); z_st := fs (k_name b); z_assigns := []; z_asserts := [] |} = Ok z1 /\
    okwalk z1 /\ ext (z_glob z1) gf /\ eval_minst (w_regs (z_st z1)) (w_mem (z_st z1)) m = Ok e /\
    w_assumes (z_st (fz (k_name b))) = w_assumes (z_st z1) /\
    z_asserts (fz (k_name b)) = z_asserts z1 ++ e :: l.
Proof.
  intros B E. pose proof (HF b B) as H. pose proof (in_steps _ _ _ _ _ _ _ _ _ _ _ _ _ H) as V.
  destruct (wg_block _ _ _ _ _ WF b B) as (AF & k & O & _).
  pose proof (in_assigned bs b B) as IA. pose proof (in_havocs bs b B) as IV.
  destruct (info_walk I G fn io K bs first args RESP WF e0 _ _ _ _ _ _ _ B H) as (OWz & _ & _ & X2 & _).
  rewrite E in *. apply assumes_after in AF. destruct (vsteps_app fn io _ _ _ _ V) as (z1 & V1 & V2). destruct (ok_instrs_app G _ _ _ _ O) as (k1 & O1 & O2).
  unfold assigned_all, havocs_all in IA, IV. rewrite flat_map_app in IA, IV. apply incl_app_l in IA as [IA1 IA2]. apply incl_app_l in IV as [IV1 IV2].
  destruct (vsteps_ok G fn io args asg bnames hvs FRESH _ _ _ _ _ O1 V1) as (OW1 & X1 & _); auto.
  { apply okwalk_start; apply H. }
  destruct (vsteps_ok G fn io args asg bnames hvs FRESH _ _ _ _ _ O2 V2 OW1 IA2 IV2) as (_ & X3 & (l & LA & LN) & _).
  cbn [ok_instrs ok_instr] in O2. destruct (ok_min G k1 m TBool) eqn:OM; [|discriminate].
  cbn [vsteps vstep] in V2. ok V2 z2 V3. ok V3 e Ev. injection V3 as <-.
  assert (OW2 : okwalk {| z_glob := z_glob z1; z_st := z_st z1; z_assigns := z_assigns z1; z_asserts := z_asserts z1 ++ [e] |}).
  { destruct OW1 as [Q1 Q2 Q3 Q4 Q5]. constructor; cbn; auto. apply Forall_app. split; auto. constructor; auto. exact (min_typed G _ k1 (z_st z1) Q2 m TBool e OM Ev). }
  destruct (vsteps_ok G fn io args asg bnames hvs FRESH _ _ _ _ _ O2 V2 OW2) as (_ & _ & _ & (l' & LB)).
  { exact IA2. } { exact IV2. }
  exists k1, z1, e, l'. split; auto. split; auto. split; auto. split; auto.
  split; [eapply ext_trans; [exact X3|]; eapply ext_trans; [exact X2|]; eapply ext_trans; [apply H | exact XF]|]. split; auto. split.
  - rewrite LA, (LN AF). apply app_nil_r.
  - rewrite LB. cbn. now rewrite <- app_assoc.
Qed.

Lemma false_assert r b e : fit (used gf) r -> In b bs -> T r b -> In e (z_asserts (fz (k_name b))) -> eval I r e = Some (VBool false) ->
  violation I (g_cells G) bs first args.
Proof.
  intros FIT B TB IN EV. pose proof (HF b B) as H.
  destruct (vsteps_asserts fn io _ _ _ _ (in_steps _ _ _ _ _ _ _ _ _ _ _ _ _ H) IN) as [[]|(pre & m & post & z1 & E & V1 & Ev)].
  destruct (split_walk b pre m post B E) as (k1 & z1' & e' & l & O1 & OM & V1' & OW1 & X1 & Ev' & AS & _).
  assert (z1' = z1) by congruence. subst z1'. assert (e' = e) by congruence. subst e'.
  destruct (path_run r FIT _ b _ _ _ _ eq_refl B H (T_start _ _ _ _ _ _ B H TB)) as (s & RS & LK).
  pose proof (in_assigned bs b B) as IA. pose proof (in_havocs bs b B) as IV. rewrite E in IA, IV.
  unfold assigned_all, havocs_all in IA, IV. rewrite flat_map_app in IA, IV. apply incl_app_l in IA as [IA1 IA2]. apply incl_app_l in IV as [IV1 IV2].
  assert (FIT1 : fit (used (z_glob z1)) r) by (intros x t X; apply FIT, (ext_used _ _ _ _ _ X1), X).
  destruct (vsteps_forward I G fn io args asg bnames hvs RESP FRESH _ _ _ _ _ r s O1 V1) as (s' & EX & LK'); auto.
  { apply okwalk_start; apply H. }
  { apply (T_walk _ _ _ _ _ _ H) in TB. unfold VcProofs2.path in *. now rewrite <- AS. }
  destruct (min_linked I G RESP _ k1 _ r s' (zo_st _ _ _ _ _ _ _ OW1) FIT1 LK' m TBool e OM Ev) as (v & V & M).
  exists b, pre, m, post, s, s'. split; auto. split; auto. split; auto. split; auto. congruence.
Qed.

Lemma asserts_typed b e : In b bs -> In e (z_asserts (fz (k_name b))) -> typed (used gf) e TBool.
Proof.
  intros B IN. destruct (info_walk I G fn io K bs first args RESP WF e0 _ _ _ _ _ _ _ B (HF b B)) as (OW & _ & _ & X2 & _).
  pose proof (zo_asserts _ _ _ _ _ _ _ OW) as F. rewrite Forall_forall in F. eapply typed_incl; [|apply F, IN]. apply ext_used.
  eapply ext_trans; [exact X2|]. eapply ext_trans; [apply (HF b B) | exact XF].
Qed.
Lemma state_ok b : In b bs -> okstate (used gf) (vst d (k_name b)).
Proof.
  intros B. eapply okstate_incl; [apply ext_used; exact XF|]. apply (info_okstate I G fn io K bs first args RESP WF e0 _ _ _ _ _ _ _ B (HF b B)).
Qed.
Lemma succ_rank b c : In b bs -> In c bs -> In (k_name c) (k_succs b) -> (rank (k_name b) < rank (k_name c))%nat.
Proof. intros B C SC. apply (rk_preds _ _ RK c); auto. apply (wg_edges _ _ _ _ _ WF b c B C). exact SC. Qed.
Lemma succ_block b x : In b bs -> In x (k_succs b) -> exists c, In c bs /\ k_name c = x /\ (rank (k_name b) < rank x)%nat.
Proof.
  intros B X. destruct (block_of bs x) as (c & C & <-); [apply (wg_closed _ _ _ _ _ WF b x B); auto|]. exists c. split; auto. split; auto. now apply succ_rank.
Qed.

Theorem safe_valid r : ~ violation I (g_cells G) bs first args -> fit (allv gf) r -> (forall b, In b bs -> tru r (fst (ff (k_name b)))) ->
  forall b, In b bs -> r (fulln (k_name b)) = Some (VBool true).
Proof.
  intros NV FIT VCS. pose proof (fit_used_all r FIT) as FITU.
  assert (P : forall n b, In b bs -> (length L - rank (k_name b) = n)%nat -> r (fulln (k_name b)) = Some (VBool true)).
  { induction n as [n IH] using lt_wf_ind. intros b B E. apply (proj1 (block_vc r b B FIT) (VCS b B)). intros _ TB. split.
    - intros x X. destruct (succ_block b x B X) as (c & C & <- & R). pose proof (rk_bound _ _ RK c (ALL c C)). apply (IH (length L - rank (k_name c))%nat); auto. lia.
    - rewrite Forall_forall. intros e IN. destruct (typed_bool I G RESP _ r e FITU (asserts_typed b e B IN)) as (v & V). unfold VcProofs2.tru. destruct v; auto.
      exfalso. apply NV. eapply false_assert; eauto. }
  intros b B. eapply P; eauto.
Qed.

(** ** A violation: the condition is not valid *)

Definition decb (r : env) (e : expr) : bool := match eval I r e with Some (VBool true) => true | _ => false end.
Lemma decb_tru r e : decb r e = true <-> tru r e.
Proof. unfold decb, VcProofs2.tru. destruct (eval I r e) as [[|[]| | |]|]; split; congruence. Qed.
Lemma decb_all r l : forallb (decb r) l = true <-> Forall (tru r) l.
Proof. rewrite forallb_forall, Forall_forall. split; intros H e E; apply decb_tru; auto. Qed.

Lemma wp_exists r : forall n, exists w : string -> bool, forall b, In b bs -> (length L <= rank (k_name b) + n)%nat ->
  (w (k_name b) = true <-> (T r b -> (forall c, In c (k_succs b) -> w c = true) /\ Forall (tru r) (z_asserts (fz (k_name b))))).
Proof.
  induction n as [|n (w & W)].
  - exists (fun _ => true). intros b B LE. pose proof (rk_bound _ _ RK b (ALL b B)). lia.
  - destruct (find (fun b => Nat.eqb (rank (k_name b) + S n) (length L)) bs) as [b0|] eqn:FD.
    + apply find_some in FD as [B0 E0]. apply Nat.eqb_eq in E0.
      set (v := implb (forallb (decb r) (w_assumes (vst d (k_name b0)))) (forallb w (k_succs b0) && forallb (decb r) (z_asserts (fz (k_name b0))))).
      exists (fun x => if String.eqb x (k_name b0) then v else w x).
      assert (SW : forall b c, In b bs -> (rank (k_name b0) <= rank (k_name b))%nat -> In c (k_succs b) -> String.eqb c (k_name b0) = false).
      { intros b c B R SC. destruct (String.eqb_spec c (k_name b0)) as [->|]; auto. exfalso. pose proof (succ_rank b b0 B B0 SC). lia. }
      intros b B LE. destruct (String.eqb_spec (k_name b) (k_name b0)) as [E|N].
      * rewrite (by_name G K bs first args WF b b0 B B0 E).
        assert (VT : v = true <-> (T r b0 -> (forall c, In c (k_succs b0) -> w c = true) /\ Forall (tru r) (z_asserts (fz (k_name b0))))).
        { unfold v, T, VcProofs2.path. rewrite <- decb_all, <- decb_all, <- forallb_forall, <- andb_true_iff.
          destruct (forallb (decb r) (w_assumes (vst d (k_name b0)))); cbn; [intuition | intuition discriminate]. }
        rewrite VT. split; intros X TB; destruct (X TB) as [X1 X2]; split; auto; intros c SC; specialize (X1 c SC); rewrite (SW b0 c B0 (le_n _) SC) in *; auto.
      * assert (LE' : (length L <= rank (k_name b) + n)%nat).
        { assert (rank (k_name b) <> rank (k_name b0)) by (intros X; apply N; f_equal; now apply rank_inj). lia. }
        rewrite (W b B LE'). assert (R : (rank (k_name b0) <= rank (k_name b))%nat) by lia.
        split; intros X TB; destruct (X TB) as [X1 X2]; split; auto; intros c SC; specialize (X1 c SC); rewrite (SW b c B R SC) in *; auto.
    + exists w. intros b B LE. apply W; auto. pose proof (find_none _ _ FD b B) as NE. cbn in NE. apply Nat.eqb_neq in NE. lia.
Qed.

Lemma havoc_regs : forall ps g0 s q, havoc_all fn io ps g0 s = Ok q -> w_regs (snd q) = w_regs s.
Proof.
  induction ps as [|p ps IH]; intros g0 s q H; cbn [havoc_all] in H; [now injection H as <-|].
  destruct (dget (w_mem s) p); [|discriminate]. ok H t E. ok H v V. apply IH in H. exact H.
Qed.
Lemma vstep_regs i z z' x : vstep fn io i z = Ok z' -> dget (w_regs (z_st z)) x <> None \/ In x (assigned_in i) -> dget (w_regs (z_st z')) x <> None.
Proof.
  intros V H. destruct i as [y t|y t p|o p|op y a b|cond y t a b| |y a|y t f os|m|m|ps|]; cbn [vstep assigned_in] in *;
    repeat match type of V with
           | Ok _ = Ok _ => injection V as <-
           | Err _ = Ok _ => discriminate V
           | bindR _ _ = Ok _ => let q := fresh "q" in let E := fresh "E" in ok V q E
           | match ?x with _ => _ end = Ok _ => let E := fresh "E" in destruct x eqn:E
           | (if ?x then _ else _) = Ok _ => let E := fresh "E" in destruct x eqn:E
           end; try discriminate; cbn; try (destruct H as [H|[]]; exact H);
    try (rewrite dget_dset; destruct (String.eqb_spec x y) as [->|N]; [discriminate|]; destruct H as [H|H]; [exact H|destruct H as [H|[]]; congruence || destruct H]);
    try (rewrite dget_dset; destruct (String.eqb_spec x y) as [->|N]; [discriminate|]; destruct H as [H|[]]; exact H).
  rewrite (havoc_regs _ _ _ _ E). destruct H as [H|[]]. exact H.
Qed.
Lemma vsteps_regs : forall is z z' x, vsteps fn io is z = Ok z' -> dget (w_regs (z_st z)) x <> None \/ In x (assigned_all is) -> dget (w_regs (z_st z')) x <> None.
Proof.
  induction is as [|i is IH]; intros z z' x V H; cbn [vsteps assigned_all flat_map] in *.
  - injection V as <-. destruct H as [H|[]]. exact H.
  - ok V z1 V1. apply (IH z1); auto. destruct H as [H|H]; [left; eapply vstep_regs; eauto|]. apply in_app_or in H as [H|H]; [left; eapply vstep_regs; eauto | auto].
Qed.

Lemma nodup_flat_map A B (f : A -> list B) l a b x : NoDup (flat_map f l) -> In a l -> In b l -> In x (f a) -> In x (f b) -> a = b \/ a = b.
Proof.
  induction l as [|c l IH]; cbn; [tauto|]. intros N IA IB XA XB.
  assert (D : forall y, In y (f c) -> ~ In y (flat_map f l)).
  { clear - N. induction (f c) as [|u m IHm]; [intros y []|]. cbn in N. inversion N as [|? ? NI N']; subst. intros y [<-|Y]; [intros X; apply NI, in_or_app; auto | auto]. }
  destruct IA as [<-|IA], IB as [<-|IB]; auto.
  - exfalso. apply (D x XA). apply in_flat_map. eauto.
  - exfalso. apply (D x XB). apply in_flat_map. eauto.
  - apply IH; auto. eapply nodup_app_r; eauto.
Qed.

Definition pairs : list (string * expr) :=
  flat_map (fun b => flat_map (fun a => match dget (w_regs (vst d (k_name b))) a with Some e => [(fulln a, e)] | None => [] end) (assigned b)) bs.
Lemma pairs_in x e : In (x, e) pairs <-> exists b a, In b bs /\ In a (assigned b) /\ x = fulln a /\ dget (w_regs (vst d (k_name b))) a = Some e.
Proof.
  unfold pairs. rewrite in_flat_map. split.
  - intros (b & B & H). apply in_flat_map in H as (a & A & H). destruct (dget (w_regs (vst d (k_name b))) a) eqn:D; [|destruct H]. destruct H as [[= <- <-]|[]]. eauto 8.
  - intros (b & a & B & A & -> & D). exists b. split; auto. apply in_flat_map. exists a. split; auto. rewrite D. now left.
Qed.
Lemma disjoint_app A (a b : list A) x : NoDup (a ++ b) -> In x a -> In x b -> False.
Proof. induction a as [|y a IH]; cbn; [tauto|]. intros N [->|X] B; inversion N; subst; [apply H1, in_or_app; auto | auto]. Qed.
Lemma asg_not_block a : In a asg -> In a bnames -> False.
Proof. pose proof NAMES as N. apply nodup_app_r in N. intros A B. exact (disjoint_app _ _ _ _ N A B). Qed.
Lemma asg_nodup : NoDup asg.
Proof.
  pose proof NAMES as N. apply nodup_app_r in N. revert N. generalize asg bnames. clear. intros l m. induction l as [|a l IH]; intros N; [constructor|].
  cbn in N. inversion N as [|? ? NI N']; subst. constructor; auto. intros X. apply NI, in_or_app. auto.
Qed.

Lemma dget_none_in A (l : list (string * A)) x v : dget l x = None -> In (x, v) l -> False.
Proof.
  induction l as [|[k u] l IH]; cbn; [tauto|]. destruct (String.eqb_spec x k) as [|N]; [discriminate|]. intros D [[= E _]|X]; [congruence | auto].
Qed.
Definition final (r : env) (w : string -> bool) : env := fun x =>
  match find (fun b => String.eqb (fulln (k_name b)) x) bs with
  | Some b => Some (VBool (w (k_name b)))
  | None => match dget pairs x with Some e => eval I r e | None => r x end
  end.
Lemma final_block r w b : In b bs -> final r w (fulln (k_name b)) = Some (VBool (w (k_name b))).
Proof.
  intros B. unfold final. destruct (find _ bs) as [c|] eqn:FD.
  - apply find_some in FD as [C E]. apply String.eqb_eq, full_inj in E. now rewrite E.
  - pose proof (find_none _ _ FD b B) as X. cbn in X. now rewrite String.eqb_refl in X.
Qed.
Lemma final_not_block r w x : ~ In x (map fulln bnames) -> final r w x = match dget pairs x with Some e => eval I r e | None => r x end.
Proof.
  intros N. unfold final. destruct (find _ bs) as [c|] eqn:FD; auto. apply find_some in FD as [C E]. apply String.eqb_eq in E.
  exfalso. apply N. rewrite <- E. apply in_map, in_map, C.
Qed.
Lemma in_full x l : In (fulln x) (map fulln l) <-> In x l.
Proof. split; [intros H; apply in_map_iff in H as (y & E & Y); apply full_inj in E; now subst | apply in_map]. Qed.
Lemma final_reg r w b a e : In b bs -> In a (assigned b) -> dget (w_regs (vst d (k_name b))) a = Some e -> final r w (fulln a) = eval I r e.
Proof.
  intros B A D. assert (AA : In a asg) by (apply in_flat_map; eauto). rewrite final_not_block by (rewrite in_full; intros X; exact (asg_not_block a AA X)).
  destruct (dget pairs (fulln a)) as [e'|] eqn:DP.
  - apply PyProofs3.dget_in, pairs_in in DP as (b' & a' & B' & A' & E & D'). apply full_inj in E. subst a'.
    assert (b' = b) by (destruct (nodup_flat_map _ _ assigned bs b' b a asg_nodup B' B A' A); auto). subst b'. congruence.
  - exfalso. assert (X : In (fulln a, e) pairs) by (apply pairs_in; eauto 8). exact (dget_none_in _ _ _ _ DP X).
Qed.
Lemma final_used r w x t : In (x, t) (used gf) -> final r w x = r x.
Proof.
  intros U. apply (used_in G fn args asg bnames hvs gf) in U as [_ PR]; auto. unfold priv in PR. apply not_true_iff_false in PR.
  rewrite final_not_block.
  - destruct (dget pairs x) as [e'|] eqn:DP; auto. apply PyProofs3.dget_in, pairs_in in DP as (b' & a' & B' & A' & E & D'). exfalso. apply PR, in_smem. subst x.
    apply in_full, in_or_app. left. apply in_flat_map. eauto.
  - intros X. apply PR, in_smem. rewrite map_app. apply in_or_app. auto.
Qed.
Lemma final_fits r w : fit (used gf) r -> fit (allv gf) (final r w).
Proof.
  intros FIT x t IN. pose proof IN as IV. apply (allv_in G fn args asg bnames hvs gf) in IV; auto.
  destruct (priv fn asg bnames x) eqn:PR.
  - assert (C : cls G fn args asg bnames hvs (q_num gf) x t) by (destruct GF as [F _]; rewrite Forall_forall in F; destruct (F _ IV) as (y & u & [= <- <-] & C); exact C).
    unfold priv in PR. apply smem_in in PR. apply in_map_iff in PR as (y & <- & Y). apply in_app_or in Y as [Y|Y].
    + pose proof Y as YA. apply in_flat_map in Y as (b & B & A). pose proof (HF b B) as H.
      destruct (dget (w_regs (vst d (k_name b))) y) as [e|] eqn:D.
      * rewrite (final_reg r w b y e B A D). destruct (proj2 (ok_regs _ _ _ (state_ok b B)) y e D) as (u & DU & TY).
        assert (u = t); [|subst u; exact (typed_eval I G RESP _ r e t FIT TY)].
        assert (CU : cls G fn args asg bnames hvs (q_num gf) (fulln y) u) by (right; left; eauto). eapply (cls_fun G fn args asg bnames hvs NAMES FRESH); eauto.
      * exfalso. rewrite (in_vst _ _ _ _ _ _ _ _ _ _ _ _ _ H) in D. cbn in D. eapply (vsteps_regs _ _ _ y (in_steps _ _ _ _ _ _ _ _ _ _ _ _ _ H)); eauto.
    + pose proof Y as YB. apply block_of in Y as (b & B & <-). rewrite (final_block r w b B).
      assert (CU : cls G fn args asg bnames hvs (q_num gf) (fulln (k_name b)) TBool) by (right; right; left; eauto).
      rewrite (cls_fun G fn args asg bnames hvs NAMES FRESH _ _ _ _ C CU). eauto.
  - assert (U : In (x, t) (used gf)) by (apply (used_in G fn args asg bnames hvs gf); auto). rewrite (final_used r w x t U). apply FIT, U.
Qed.

Theorem violation_invalid : violation I (g_cells G) bs first args ->
  exists r, fit (allv gf) r /\ (forall b, In b bs -> tru r (fst (ff (k_name b)))) /\ r (fulln first) <> Some (VBool true).
Proof.
  intros (b & pre & m & post & s & s' & B & E & RS & EX & MV).
  destruct (run_path _ _ RS) as (b' & B' & EB & RP). rewrite (by_name G K bs first args WF b' b B' B EB) in *. clear b' B' EB.
  pose proof (HF b B) as H. destruct (RP _ _ _ _ H) as (r0 & FIT0 & P0 & LK0). clear RP.
  destruct (split_walk b pre m post B E) as (k1 & z1 & e & l & O1 & OM & V1 & OW1 & X1 & Ev & AS & AE).
  pose proof (in_assigned bs b B) as IA. pose proof (in_havocs bs b B) as IV. rewrite E in IA, IV.
  unfold assigned_all, havocs_all in IA, IV. rewrite flat_map_app in IA, IV. apply incl_app_l in IA as [IA1 IA2]. apply incl_app_l in IV as [IV1 IV2].
  destruct (vsteps_backward I G fn io args asg bnames hvs RESP NAMES FRESH gf GF _ _ _ _ _ r0 s s' O1 V1) as (r & FIT & _ & LK & P); auto.
  { apply okwalk_start; apply H. }
  assert (FIT1 : fit (used (z_glob z1)) r) by (intros x t X; apply FIT, (ext_used _ _ _ _ _ X1), X).
  assert (TB : T r b) by (apply (T_walk _ _ _ _ _ _ H); unfold VcProofs2.path in *; now rewrite AS).
  destruct (min_linked I G RESP _ k1 _ r s' (zo_st _ _ _ _ _ _ _ OW1) FIT1 LK m TBool e OM Ev) as (v & V & M).
  assert (EF : eval I r e = Some (VBool false)) by congruence.
  destruct (wp_exists r (length L)) as (w & W).
  assert (W' : forall b, In b bs -> (w (k_name b) = true <-> (T r b -> (forall c, In c (k_succs b) -> w c = true) /\ Forall (tru r) (z_asserts (fz (k_name b)))))).
  { intros c C. apply W; auto. lia. }
  assert (AG : forall x t, In (x, t) (used gf) -> r x = final r w x) by (intros x t U; symmetry; eapply final_used; eauto).
  assert (AG' : forall x t, In (x, t) (used gf) -> final r w x = r x) by (intros x t U; eapply final_used; eauto).
  exists (final r w). split; [now apply final_fits|]. split.
  - intros c C. apply (block_vc _ c C (final_fits r w FIT)). rewrite (final_block r w c C).
    assert (TT : T (final r w) c <-> T r c) by (split; apply (path_agree I G (used gf)); auto; apply state_ok, C).
    assert (EQ : equations (final r w) c).
    { intros x e1 D1 D2. destruct (vsteps_keys fn io _ _ _ x (in_steps _ _ _ _ _ _ _ _ _ _ _ _ _ (HF c C)) D1) as [X|X]; [now contradiction X|].
      assert (D3 : dget (w_regs (vst d (k_name c))) x = Some e1) by (rewrite (in_vst _ _ _ _ _ _ _ _ _ _ _ _ _ (HF c C)); exact D2).
      rewrite (final_reg r w c x e1 C X D3). destruct (proj2 (ok_regs _ _ _ (state_ok c C)) x e1 D3) as (u & _ & TY). exact (typed_agree I G (used gf) _ _ e1 u AG TY). }
    assert (SS : (forall x, In x (k_succs c) -> final r w (fulln x) = Some (VBool true)) <-> (forall x, In x (k_succs c) -> w x = true)).
    { split; intros Q x X; specialize (Q x X); destruct (succ_block c x C X) as (y & Y & <- & _); rewrite (final_block r w y Y) in *; congruence. }
    assert (AA : Forall (tru (final r w)) (z_asserts (fz (k_name c))) <-> Forall (tru r) (z_asserts (fz (k_name c)))).
    { rewrite !Forall_forall. split; intros Q x X; specialize (Q x X); unfold VcProofs2.tru in *; rewrite <- Q; [|symmetry]; apply (typed_agree I G (used gf) _ _ x TBool AG (asserts_typed c x C X)). }
    rewrite TT, SS, AA. split.
    + intros [= Q] _ TC. exact (proj1 (W' c C) Q TC).
    + intros Q. f_equal. f_equal. apply (proj2 (W' c C)). exact (Q EQ).
  - assert (DN : forall n c, In c bs -> rank (k_name c) = n -> T r c -> w (k_name c) <> true -> w first <> true).
    { induction n as [n IH] using lt_wf_ind. intros c C R TC WC. destruct (string_dec (k_name c) first) as [F|N]; [now rewrite <- F|].
      destruct (T_pred r c FIT C N TC) as (p & Pb & _ & TP & RP & SP). apply (IH (rank (k_name p)) ltac:(lia) p Pb eq_refl TP).
      intros WP. apply WC. apply (proj1 (W' p Pb) WP TP). exact SP. }
    destruct first_block as (fb & FB & FE). rewrite <- FE, (final_block r w fb FB), FE. intros [= Q]. revert Q. apply (DN _ b B eq_refl TB).
    intros WB. destruct (proj1 (W' b B) WB TB) as [_ AF]. rewrite Forall_forall in AF.
    assert (EI : In e (z_asserts (fz (k_name b)))) by (rewrite AE; apply in_or_app; right; now left).
    specialize (AF e EI). unfold VcProofs2.tru in AF. congruence.
Qed.

Theorem body_valid : (forall r, fits_vars (q_vars gf) r -> eval I r body = Some (VBool true)) <-> ~ violation I (g_cells G) bs first args.
Proof.
  split.
  - intros V X. destruct (violation_invalid X) as (r & FIT & VCS & NF). apply NF. apply (body_eval r FIT); auto. apply V.
    apply (fits_all G fn args asg bnames hvs gf r GF). exact FIT.
  - intros NV r F. apply (fits_all G fn args asg bnames hvs gf r GF) in F. apply (body_eval r F). intros VCS. destruct first_block as (fb & FB & FE). pose proof (safe_valid r NV F VCS fb FB) as Q. now rewrite FE in Q.
Qed.
End Chosen.
End Runs.

(** ** The whole *)
Theorem compute_vc_correct I G fn io K bs first args uninterp vars body : respects I G -> wf_graph G K bs first args ->
  compute_vc fn io bs first args uninterp = Ok (vars, body) ->
  (valid_vc I vars body <-> ~ violation I (g_cells G) bs first args).
Proof.
  intros RESP WF C. destruct (compute_vc_inv I G fn io K bs first args uninterp RESP WF vars body C) as (L & g & d & gf & INV & ALL & GF & XF & -> & _ & ARGS & ->).
  destruct (iv_rank _ _ _ _ _ _ _ _ _ _ INV) as (rank & RK).
  destruct (choose_info G fn io K bs first args uninterp WF L g d INV ALL bs (incl_refl _)) as (fg & fs & fz & ff & HF).
  exact (body_valid I G fn io K bs first args uninterp RESP WF L g d gf rank INV ALL RK GF XF fg fs fz ff HF).
Qed.
