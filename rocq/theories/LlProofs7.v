(** The order in which the LLVM frontend visits blocks (C34). *)

From Coq Require Import String List ZArith Bool Lia.
From Verif Require Import Ast Semantics Dict ObjModel UtilModel UtilProofs PyModel PySem PyProofs PyProofs2 PyProofs3 PyProofs4.
From Verif Require Import LlModel LlSem LlProofs LlProofs2.
Import ListNotations.
Local Open Scope list_scope.

(** an edge of the control-flow graph, and a back edge of one of the given loops *)
Definition edge (f : lfunc) (p b : string) : Prop :=
  exists is ts, In (p, is) (lf_blocks f) /\ targets is = Ok ts /\ In b ts.
Definition back (f : lfunc) (p b : string) : Prop :=
  exists rl, In rl (lf_loops f) /\ rl_header rl = b /\ In p (rl_latches rl).
(** a latch jumps to its header in one way only *)
Definition single_back (f : lfunc) : Prop :=
  forall p b is ts, back f p b -> In (p, is) (lf_blocks f) -> targets is = Ok ts -> count_occ string_dec ts b <= 1.

Notation cnt := (count_occ string_dec).

Lemma preds_of_other x p ts : ~ In p (map fst ts) -> cnt (preds_of x ts) p = 0.
Proof.
  intros N. apply count_occ_not_In. intros IN. apply preds_of_in in IN as (t & IN & _). apply N.
  change p with (fst (p, t)). now apply in_map.
Qed.
Lemma preds_of_count x p ts t : NoDup (map fst ts) -> In (p, t) ts -> cnt (preds_of x ts) p = cnt t x.
Proof.
  induction ts as [|[q u] ts IH]; cbn [map fst]; intros ND IN; [destruct IN|]. inversion ND as [|? ? NI ND']; subst.
  unfold preds_of. cbn [flat_map fst snd]. fold (preds_of x ts). rewrite count_occ_app.
  assert (K : forall l, cnt (map (fun _ => q) (filter (String.eqb x) l)) p = if string_dec q p then cnt l x else 0).
  { induction l as [|y l IHl]; cbn -[string_dec]; [destruct (string_dec q p); reflexivity|].
    destruct (String.eqb_spec x y) as [->|N]; cbn -[string_dec].
    - destruct (string_dec y y); [|contradiction]. rewrite IHl. destruct (string_dec q p); reflexivity.
    - destruct (string_dec y x); [congruence|]. exact IHl. }
  rewrite K. destruct IN as [[= -> ->]|IN].
  - destruct (string_dec p p); [|contradiction]. rewrite preds_of_other by exact NI. lia.
  - destruct (string_dec q p) as [->|].
    + exfalso. apply NI. change p with (fst (p, t)). now apply in_map.
    + now apply IH.
Qed.

Lemma remove_one_count x l l' : remove_one x l = Ok l' -> forall y, cnt l y = cnt l' y + (if string_dec x y then 1 else 0).
Proof.
  revert l'. induction l as [|z l IH]; intros l' H y; cbn in H; [discriminate|].
  destruct (String.eqb_spec x z) as [->|N].
  - injection H as <-. cbn -[string_dec]. destruct (string_dec z y); lia.
  - ok H r' Er. injection H as <-. cbn -[string_dec]. rewrite (IH _ Er y). destruct (string_dec z y), (string_dec x y); lia.
Qed.

(** what removing back edges does to the number of times a block is listed *)
Definition fewer (b b' : block) : Prop := b_name b' = b_name b /\ forall p, cnt (b_preds b') p <= cnt (b_preds b) p.
Definition removed (h p : string) (b b' : block) : Prop := fewer b b' /\ (b_name b = h -> cnt (b_preds b') p <= cnt (b_preds b) p - 1).

Lemma fewer_trans b1 b2 b3 : fewer b1 b2 -> fewer b2 b3 -> fewer b1 b3.
Proof. intros [A B] [C D]. split; [congruence|]. intros p. specialize (B p). specialize (D p). lia. Qed.
Lemma removed_before h p b1 b2 b3 : fewer b1 b2 -> removed h p b2 b3 -> removed h p b1 b3.
Proof. intros F [F' R]. split; [eapply fewer_trans; eauto|]. destruct F as [N C]. intros E. specialize (C p). rewrite N in R. specialize (R E). lia. Qed.
Lemma removed_after h p b1 b2 b3 : removed h p b1 b2 -> fewer b2 b3 -> removed h p b1 b3.
Proof. intros [F R] F'. split; [eapply fewer_trans; eauto|]. intros E. specialize (R E). destruct F' as [_ C]. specialize (C p). lia. Qed.

Lemma forall2_comp {A} (P Q R : A -> A -> Prop) l1 l2 l3 : (forall a b c, P a b -> Q b c -> R a c) -> Forall2 P l1 l2 -> Forall2 Q l2 l3 -> Forall2 R l1 l3.
Proof. intros H F. revert l3. induction F; intros l3 G; inversion G; subst; constructor; eauto. Qed.
Lemma forall2_map {A} (P : A -> A -> Prop) g (l : list A) : (forall a, In a l -> P a (g a)) -> Forall2 P l (map g l).
Proof. induction l; cbn; intros H; constructor; auto. Qed.
Lemma forall2_refl {A} (P : A -> A -> Prop) (l : list A) : (forall a, P a a) -> Forall2 P l l.
Proof. intros H. induction l; constructor; auto. Qed.
Lemma fewer_names bs bs' : Forall2 fewer bs bs' -> map b_name bs' = map b_name bs.
Proof. induction 1 as [|b b' bs bs' [A _]]; cbn; congruence. Qed.

Lemma remove_edge_removed bs latch h bs' : remove_edge bs latch h = Ok bs' -> NoDup (map b_name bs) -> Forall2 (removed h latch) bs bs'.
Proof.
  unfold remove_edge. intros H ND. ok H l El. ok H hb Eh. ok H su Esu. ok H pr Epr. injection H as <-.
  apply forall2_map. intros b IN. destruct (String.eqb_spec (b_name b) h) as [E|N].
  - assert (hb = b). { unfold get_block in Eh. destruct (find_block bs h) as [h'|] eqn:FB; [|discriminate]. injection Eh as <-.
      rewrite <- E in FB. rewrite (find_block_nodup _ _ ND IN) in FB. congruence. }
    subst hb. pose proof (remove_one_count _ _ _ Epr) as C. split; [split; auto|]; cbn [b_preds b_name].
    + intros p. rewrite (C p). lia.
    + intros _. rewrite (C latch). destruct (string_dec latch latch); [lia|contradiction].
  - split; [split; auto|]. intros E. contradiction.
Qed.

Lemma removed_fewer h l bs bs' : Forall2 (removed h l) bs bs' -> Forall2 fewer bs bs'.
Proof. induction 1 as [|? ? ? ? [A _]]; constructor; auto. Qed.

Lemma loop_of_removed bs rl bs' lo : loop_of bs rl = Ok (bs', lo) -> NoDup (map b_name bs) ->
  Forall2 fewer bs bs' /\ forall p, In p (rl_latches rl) -> Forall2 (removed (rl_header rl) p) bs bs'.
Proof.
  unfold loop_of. intros H ND. ok H h Eh. ok H body Eb. ok H exits Ee. ok H latches El. ok H bs1 Ebs. injection H as <- _.
  clear Eb Ee El Eh h body exits latches. revert bs ND Ebs. induction (rl_latches rl) as [|l ls IH]; intros bs ND R.
  - injection R as <-. split; [apply forall2_refl; intros b; split; auto | intros p []].
  - ok R bs2 E2. pose proof (remove_edge_removed _ _ _ _ E2 ND) as F. pose proof (removed_fewer _ _ _ _ F) as F'.
    destruct (IH bs2) as [A B]; auto. { now rewrite (fewer_names _ _ F'). }
    split; [eapply forall2_comp; [| exact F' | exact A]; intros; eapply fewer_trans; eauto|].
    intros p [<-|IN].
    + eapply forall2_comp; [| exact F | exact A]. intros; eapply removed_after; eauto.
    + eapply forall2_comp; [| exact F' | exact (B p IN)]. intros; eapply removed_before; eauto.
Qed.
Lemma loops_of_removed rls : forall bs bs' los, loops_of bs rls = Ok (bs', los) -> NoDup (map b_name bs) ->
  Forall2 fewer bs bs' /\ forall rl p, In rl rls -> In p (rl_latches rl) -> Forall2 (removed (rl_header rl) p) bs bs'.
Proof.
  induction rls as [|rl rls IH]; intros bs bs' los H ND; cbn [loops_of] in H.
  - injection H as <- <-. split; [apply forall2_refl; intros b; split; auto | intros rl p []].
  - ok H p0 Ep. ok H q Eq'. destruct p0 as [bs1 lo]. destruct q as [bs2 los2]. injection H as <- <-. cbn [fst snd] in *.
    destruct (loop_of_removed _ _ _ _ Ep ND) as (A & B).
    destruct (IH _ _ _ Eq') as [C D]. { now rewrite (fewer_names _ _ A). }
    split; [eapply forall2_comp; [| exact A | exact C]; intros; eapply fewer_trans; eauto|].
    intros rl' p [<-|IN] P.
    + eapply forall2_comp; [| exact (B p P) | exact C]. intros; eapply removed_after; eauto.
    + eapply forall2_comp; [| exact A | exact (D rl' p IN P)]. intros; eapply removed_before; eauto.
Qed.

Lemma preds_exact f bs los : graph_of f = Ok (bs, los) -> NoDup (map fst (lf_blocks f)) -> single_back f ->
  forall b p, In b bs -> (In p (b_preds b) <-> edge f p (b_name b) /\ ~ back f p (b_name b)).
Proof.
  intros G0 ND SB b p IN. destruct (graph_ok f bs los G0 ND) as [GR ML]. split.
  - intros P. destruct (gr_preds _ _ _ GR b p IN P) as (pb & ts & P1 & P2 & P3 & P4).
    assert (ED : In (p, b_instrs pb) (lf_blocks f)) by (rewrite <- P2; exact (gr_instrs _ _ _ GR pb P1)).
    split; [exists (b_instrs pb), ts; auto|]. intros BK. pose proof BK as (rl & R1 & R2 & R3).
    unfold graph_of in G0. ok G0 bs0 E0. pose proof E0 as SG. apply setup_graph in SG.
    assert (ND0 : NoDup (map b_name bs0)) by (rewrite (gr_names _ _ _ SG); exact ND).
    destruct (loops_of_removed _ _ _ _ G0 ND0) as [_ RM]. specialize (RM rl p R1 R3). rewrite R2 in RM.
    assert (BW : exists b0, In b0 bs0 /\ removed (b_name b) p b0 b).
    { revert IN. generalize dependent bs0. clear. intros bs0 _ _ _ _ RM. remember (b_name b) as h eqn:Eh. revert Eh. 
      induction RM as [|c c' bs0 bs RB R IH]; intros Eh IN; [destruct IN|]. destruct IN as [<-|IN]; [exists c; split; [now left | auto]|].
      destruct (IH Eh IN) as (d & ? & ?). exists d. split; [now right | auto]. }
    destruct BW as (b0 & B1 & [[B2 _] B3]). specialize (B3 (eq_sym B2)).
    assert (B4 : cnt (b_preds b0) p <= 1).
    { unfold setup_blocks in E0. ok E0 tls Etl. destruct (setup_ts _ _ Etl) as (S1 & S2 & S3). destruct (forallb _ tls); [|discriminate].
      injection E0 as <-. apply in_map_iff in B1 as ([x is] & <- & B1). cbn [b_preds b_name fst snd] in *.
      destruct (S2 _ ED) as (u & U1 & U2). cbn [fst snd] in U1, U2. rewrite P3 in U1. injection U1 as <-.
      rewrite (preds_of_count x p tls ts); [rewrite <- B2; eapply SB; eauto | rewrite S1; exact ND | exact U2]. }
    apply (count_occ_In string_dec) in P. lia.
  - intros [(is & ts & E1 & E2 & E3) NB].
    assert (PB : exists pb, In pb bs /\ b_name pb = p /\ b_instrs pb = is).
    { assert (I : In p (map b_name bs)). { rewrite (gr_names _ _ _ GR). change p with (fst (p, is)). now apply in_map. }
      apply in_map_iff in I as (pb & N & I). exists pb. split; auto. split; auto.
      pose proof (gr_instrs _ _ _ GR pb I) as J. rewrite N in J.
      pose proof (dget_nodup _ _ _ ND J) as D1. pose proof (dget_nodup _ _ _ ND E1) as D2. congruence. }
    destruct PB as (pb & I & N & EI). rewrite <- EI in E2.
    destruct (gr_succs _ _ _ GR pb ts (b_name b) I E2 E3) as (tb & T1 & T2 & T3).
    assert (tb = b).
    { assert (ND' : NoDup (map b_name bs)) by (rewrite (gr_names _ _ _ GR); exact ND).
      pose proof (find_block_nodup _ _ ND' T1) as F1. pose proof (find_block_nodup _ _ ND' IN) as F2. congruence. }
    subst tb. rewrite N in T3. destruct T3 as [T3|(lo & L1 & L2 & L3)]; auto. exfalso. apply NB.
    clear - ML L1 L2 L3. unfold back. induction ML as [|rl lo' rls los' [M1 M2] ML IH]; [destruct L1|].
    destruct L1 as [->|L1].
    + exists rl. split; [now left|]. split; congruence.
    + destruct (IH L1) as (rl' & ? & ?). exists rl'. split; [now right | auto].
Qed.

(** all blocks are visited if the graph without the back edges has no cycle *)
Lemma all_done blocks d (rank : string -> nat) :
  (forall b p, In b blocks -> In p (b_preds b) -> In p (map b_name blocks) /\ rank p < rank (b_name b)) ->
  (forall b, In b blocks -> ~ (~ In (b_name b) d /\ incl (b_preds b) d)) ->
  forall b, In b blocks -> In (b_name b) d.
Proof.
  intros RK RD.
  assert (K : forall n b, rank (b_name b) < n -> In b blocks -> In (b_name b) d).
  { induction n as [|n IH]; intros b L IN; [lia|].
    destruct (in_dec string_dec (b_name b) d) as [|N]; auto. exfalso. apply (RD b IN). split; auto.
    intros p P. destruct (RK b p IN P) as [PN PR]. apply in_map_iff in PN as (pb & <- & PI). apply IH; auto. lia. }
  intros b IN. eapply K; eauto.
Qed.

Lemma analyze_parts uninterp grammars pre f bs los v : analyze_func uninterp grammars pre f = Ok (bs, los, v) ->
  graph_of f = Ok (bs, los) /\ exists args, sort_objs (lf_args f) = Ok args /\
  passes (lf_name f) (lf_ret f) args (lf_sret f) uninterp los grammars bs (S (length bs)) (new_visitor pre) = Ok v.
Proof.
  unfold analyze_func, graph_of. intros H. ok H bs0 Eb. rewrite Eb. cbn [bindR]. ok H p Ep. ok H args Ea. ok H v0 Ev. injection H as <- <- <-.
  rewrite Ep. destruct p. eauto.
Qed.

Theorem visits f uninterp grammars pre bs los v :
  NoDup (map fst (lf_blocks f)) -> single_back f ->
  (exists rank : string -> nat, forall p b, edge f p b -> ~ back f p b -> rank p < rank b) ->
  analyze_func uninterp grammars pre f = Ok (bs, los, v) ->
  NoDup (v_done v) /\ (forall x, In x (v_done v) <-> In x (map fst (lf_blocks f))) /\
  forall l1 x l2, v_done v = l1 ++ x :: l2 -> forall p, edge f p x -> ~ back f p x -> In p l1.
Proof.
  intros ND SB [rank RK] AN. apply analyze_parts in AN as (GO & args & _ & PA). destruct (graph_ok f bs los GO ND) as [GR ML].
  pose proof (preds_exact f bs los GO ND SB) as PE. destruct (passes_reach _ _ _ _ _ _ _ _ _ _ _ PA) as [RE NR].
  assert (OR : ordered bs (v_done v)) by (eapply reach_ordered; [|exact RE]; reflexivity).
  split; [eapply ordered_nodup; exact OR|]. split.
  - intros x. split.
    + intros IN. apply in_split in IN as (l1 & l2 & E). destruct (OR _ _ _ E) as (b & B1 & <- & _). rewrite <- (gr_names _ _ _ GR). now apply in_map.
    + intros IN. rewrite <- (gr_names _ _ _ GR) in IN. apply in_map_iff in IN as (b & <- & IN). revert b IN. apply (all_done bs (v_done v) rank).
      * intros b p IN P. pose proof (proj1 (PE b p IN) P) as [E NB]. split; [|auto]. destruct E as (is & ts & E & _).
        rewrite (gr_names _ _ _ GR). change p with (fst (p, is)). now apply in_map.
      * intros b IN [N P]. assert (ready v b = true) by (apply ready_ok; auto). rewrite (NR b IN) in H. discriminate.
  - intros l1 x l2 E p ED NB. destruct (OR _ _ _ E) as (b & B1 & <- & _ & B2). apply B2. apply PE; auto.
Qed.

(** ** The bound on the number of passes does not matter *)
Section Fuel.
Variables (fn : string) (ret : ty) (fargs : list obj) (sret : option obj) (uninterp : list string)
          (loops : list loop_info) (grammars : dict (list string * list obj)) (blocks : list block).
Notation PASSES := (passes fn ret fargs sret uninterp loops grammars blocks).
Notation PASS := (one_pass fn ret fargs sret uninterp loops grammars blocks).

Lemma ordered_bound d : ordered blocks d -> length d <= length blocks.
Proof.
  intros O. rewrite <- (map_length b_name blocks). apply NoDup_incl_length; [eapply ordered_nodup; exact O|].
  intros x IN. apply in_split in IN as (l1 & l2 & E). destruct (O _ _ _ E) as (b & B & <- & _). now apply in_map.
Qed.
Lemma passes_enough v0 : v_done v0 = [] -> forall n m v, reach fn ret fargs sret uninterp loops grammars blocks v0 v ->
  length blocks - length (v_done v) < n -> length blocks - length (v_done v) < m -> PASSES n v = PASSES m v.
Proof.
  intros E0. induction n as [|n IH]; intros m v R L1 L2; [lia|]. destruct m as [|m]; [lia|]. cbn [passes].
  destruct (PASS v) as [v1|] eqn:E; [|reflexivity]. cbn [bindR].
  destruct (one_pass_reach fn ret fargs sret uninterp loops grammars blocks blocks v v1 (incl_refl _) E) as (A & (d & D) & _).
  destruct (Nat.eqb_spec (length (v_done v1)) (length (v_done v))) as [L|L]; [reflexivity|].
  assert (R1 : reach fn ret fargs sret uninterp loops grammars blocks v0 v1) by (eapply reach_trans; eauto).
  pose proof (ordered_bound _ (reach_ordered _ _ _ _ _ _ _ _ _ _ E0 R1)) as B.
  assert (length (v_done v) < length (v_done v1)) by (rewrite D, app_length in *; lia).
  apply IH; auto; lia.
Qed.
End Fuel.
