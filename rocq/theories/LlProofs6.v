(** Proofs about the LLVM frontend, part 6: every run of the function is covered by
    the verification condition. *)

From Coq Require Import String List ZArith Bool Lia.
From Verif Require Import Ast Semantics Dict IrProofs IrProofs3 ObjModel UtilModel UtilProofs PyModel PySem PyProofs PyProofs2 PyProofs3 PyProofs4 LlModel LlSem LlProofs LlProofs2 LlProofs3 LlProofs4 LlProofs5.
Import ListNotations.
Local Open Scope list_scope.

Lemma and_conjb I r os a : and_objects os = Ok a -> Forall (fun e => pl true e = true) os ->
  eval I r a = Some (VBool true) -> Forall (fun e => eval I r e = Some (VBool true)) os.
Proof.
  intros N P E. apply objects_split in N. destruct (os_init_spec os) as (D & Sb & C).
  assert (F : Forall (fun e => eval I r e = Some (VBool true)) (os_init os)).
  { destruct (os_init os) as [|e es]; [discriminate|]. destruct (fold_exprs_conj I r _ _ _ N E); auto. }
  rewrite Forall_forall in *. intros x IN.
  destruct (proj1 (C x)) as (y & INy & Ey); [exists x; split; auto; apply expr_eqb_refl|].
  rewrite <- (equal_same_value I y x r Ey (pl_agree y true x (P y (os_init_in _ _ INy)) (P x IN) Ey)). auto.
Qed.

(** ** Expressions that do not mention the variables of a loop *)

Definition cleanx (hv : list string) (e : expr) : Prop := forall x, In x (fv e) -> ~ In x hv.
Definition gcond (hv : list string) (e : expr) : Prop := pl true e = true /\ cleanx hv e.
Lemma objects_clean k hv os a : In k [KAnd; KOr] -> (e <- nary_exprs k (os_init os) ;; mkBoolObj e) = Ok a -> Forall (gcond hv) os -> gcond hv a.
Proof.
  intros K N FC. destruct (objects_goodb k (flat_map fv os) os a K N) as [P IC].
  - rewrite Forall_forall in *. intros e IN. split; [apply (FC e IN)|]. intros x X. apply in_flat_map. eauto.
  - split; auto. intros x X. apply IC, in_flat_map in X as (e & IN & X). rewrite Forall_forall in FC. exact (proj2 (FC e IN) x X).
Qed.
Lemma ands_clean hv pcs : forall cs, mapR and_objects pcs = Ok cs -> Forall (Forall (gcond hv)) pcs -> Forall (gcond hv) cs.
Proof.
  induction pcs as [|pc pcs IH]; intros cs M FC; cbn [mapR] in M; [injection M as <-; constructor|].
  ok M c Ec. ok M cs' Ecs. injection M as <-. inversion FC; subst. constructor; auto. eapply (objects_clean KAnd); eauto. now left.
Qed.
Lemma filter_forall A (P : A -> Prop) g l : Forall P l -> Forall P (filter g l).
Proof. rewrite !Forall_forall. intros H x X. apply filter_In in X. apply H, X. Qed.
Lemma value_cond_clean hv pcs c : value_cond pcs = Ok c -> Forall (Forall (gcond hv)) pcs -> cleanx hv c.
Proof.
  unfold value_cond. intros H FC. ok H cs Ecs. apply (ands_clean hv) in Ecs; [|now apply filter_forall].
  destruct cs as [|c1 cs]; [injection H as <-; intros x []|]. apply (objects_clean KOr hv _ _) in H; [apply H | cbn; auto | exact Ecs].
Qed.
Lemma merge_values_clean hv vs : Forall (fun p => cleanx hv (fst p) /\ cleanx hv (snd p)) vs -> forall acc e, cleanx hv acc -> merge_values acc vs = Ok e -> cleanx hv e.
Proof.
  induction 1 as [|[e1 c1] vs [O1 O2] FC IH]; intros acc e CA M; cbn [merge_values] in M; [now injection M as <-|].
  cbn [fst snd] in *. ok M acc' Ea. apply (IH acc' e); auto.
  assert (OA' : exists t, acc' = Node KIte t [c1; e1; acc]).
  { unfold mkIte in Ea. ok Ea tc Etc. destruct (negb (ty_eqb tc TBool)); [discriminate|]. ok Ea ta Eta. ok Ea tb Etb. destruct (ty_eqb ta tb); [|discriminate]. injection Ea as <-. eauto. }
  destruct OA' as [t ->]. intros x X. cbn [fv flat_map] in X. rewrite app_nil_r, !in_app_iff in X. destruct X as [X|[X|X]]; [apply (O2 x X) | apply (O1 x X) | apply (CA x X)].
Qed.
Lemma merge_var_clean hv vs o : merge_var vs = Ok o -> Forall (fun p => cleanx hv (fst p) /\ Forall (Forall (gcond hv)) (snd p)) vs -> cleanx hv (o_src o).
Proof.
  unfold merge_var. intros M FC. ok M e Ee. ok M t Et. apply create_ok in M. subst o. cbn [o_src]. clear t Et.
  destruct vs as [|[e1 pcs1] [|[e2 pcs2] vs]]; [discriminate| |].
  - injection Ee as <-. inversion FC as [|? ? [O _] _]; subst. exact O.
  - set (W := (e1, pcs1) :: (e2, pcs2) :: vs) in *. ok Ee cs Ecs.
    assert (C : Forall (fun p => cleanx hv (fst p) /\ cleanx hv (snd p)) cs).
    { clear Ee. clearbody W. revert cs Ecs. induction FC as [|[e' pcs'] W' (O & N) FC IH]; intros cs M; cbn [mapR] in M; [injection M as <-; constructor|].
      ok M p Ep. ok M cs' Ecs. injection M as <-. ok Ep c Ec. injection Ep as <-. cbn [fst snd] in *. constructor; [|now apply IH]. split; [exact O | eapply value_cond_clean; eauto]. }
    destruct cs as [|[e0 c0] cs]; [discriminate|]. inversion C as [|? ? [O _] C0]; subst. eapply merge_values_clean; eauto.
Qed.
Lemma merge_dict_clean hv ptr ss d : merge_dict (sel_of ptr) ss = Ok d -> Forall (fun s => NoDup (dkeys (prims s)) /\ NoDup (dkeys (ptrs s))) ss ->
  Forall (fun s => Forall (gcond hv) (l_precond s)) ss ->
  forall x o, (forall s o, In s ss -> sget s (ptr, x) = Some o -> cleanx hv (o_src o)) -> dget d x = Some o -> cleanx hv (o_src o).
Proof.
  intros M ND PC x o H E. unfold merge_dict in M. rewrite gather_items in M. destruct (merge_keys _ _ M) as [K B].
  destruct (gather_facts (items (sel_of ptr) ss)) as (N & FR & CO). set (gd := fold_left gather1 (items (sel_of ptr) ss) []) in *.
  rewrite Forall_forall in ND, PC.
  assert (IT : forall pc x e, In (pc, x, e) (items (sel_of ptr) ss) -> exists s o, In s ss /\ sget s (ptr, x) = Some o /\ e = o_src o /\ pc = l_precond s).
  { intros pc y e IN. apply in_flat_map in IN as (s & INs & IN). apply in_map_iff in IN as ([z u] & [= <- <- <-] & IN). cbn [fst snd].
    exists s, u. split; auto. split; auto. unfold sget; cbn [fst snd]. unfold sel_of in IN. destruct (ND s INs). destruct ptr; apply nodup_dget; auto. }
  specialize (B x). destruct (dget gd x) as [vs|] eqn:GV; [|congruence]. destruct B as (o' & MV & E'). rewrite E in E'. injection E' as <-.
  apply (merge_var_clean hv vs o MV). destruct (FR x vs GV) as [NV F']. rewrite Forall_forall. intros [e pcs] IN.
  destruct (F' e pcs IN) as (P1 & (pc & P2) & P3). destruct (IT _ _ _ P2) as (s & u & Q1 & Q2 & -> & _). cbn [fst snd]. split; [eapply H; eauto|].
  rewrite Forall_forall. intros q Q. destruct (P3 q Q) as (e' & R1 & _). destruct (IT _ _ _ R1) as (s' & u' & R2 & _ & _ & ->). auto.
Qed.
Lemma merged_clean hv ss pc0 s1 Y : merged ss pc0 s1 -> ss <> [] -> Forall (fun s => NoDup (dkeys (prims s)) /\ NoDup (dkeys (ptrs s))) ss ->
  Forall (fun s => l_precond s <> []) ss -> Forall (fun s => Forall (gcond hv) (l_precond s)) ss -> Forall (fun s => Cl hv s Y) ss ->
  Forall (gcond hv) (l_precond s1) /\ Cl hv s1 Y.
Proof.
  intros [(cs & CS & PC) M1 M2] NN ND NE GC CY. split.
  - rewrite filter_nonempty in CS by (rewrite Forall_map; exact NE).
    assert (C1 : Forall (gcond hv) cs) by (eapply ands_clean; [exact CS | rewrite Forall_map; exact GC]).
    destruct cs as [|c1 cs]; [exfalso; destruct ss as [|s ss]; [congruence|]; cbn [map mapR] in CS; destruct (and_objects (l_precond s)); cbn [bindR] in CS; try discriminate; destruct (mapR and_objects (map l_precond ss)); discriminate|].
    destruct PC as (c & OC & ->). constructor; [|constructor]. apply (objects_clean KOr hv _ _) in OC; auto. cbn; auto.
  - intros [[] x] o z IN E; rewrite Forall_forall in CY.
    + apply (merge_dict_clean hv true ss _ M2 ND GC x o); auto. intros s u INs SG y Y0. apply (CY s INs (true, x) u y IN SG Y0).
    + apply (merge_dict_clean hv false ss _ M1 ND GC x o); auto. intros s u INs SG y Y0. apply (CY s INs (false, x) u y IN SG Y0).
Qed.

Section Sim.
Variables (I : interp) (U : string -> list val -> option val) (an : annot) (uninterp : list string).
Hypothesis LIB : llibrary I.
Hypothesis UNI : forall f vs, smem f (uninterp ++ maths) = true -> i_call I f vs = U f vs /\ exists z, U f vs = Some (VInt z).
Variables (f : lfunc) (bs : list block) (los : list loop_info) (grammars : dict (list string * list obj)) (pre : list expr) (fargs : list obj).
Hypothesis SUP : lsupported an uninterp grammars f bs los (nonempty pre) = true.
Hypothesis GR : graph (lf_blocks f) bs los.
Hypothesis ML : Forall2 matches (lf_loops f) los.
Hypothesis SORT : sort_objs (lf_args f) = Ok fargs.
Hypothesis INVT : forall n vs, exists b, i_call I (inv_name (lf_name f) n) vs = Some (VBool b).
Hypothesis PRE : Forall (okcond I an (argn f)) pre.
Variable V : visitor.
Hypothesis IV : INV I U an uninterp f bs los grammars pre fargs V.
Hypothesis ALL : forall b, In b bs -> In (b_name b) (v_done V).

Notation fn := (lf_name f).
Notation sn := (sret_name f).
Notation okst := (okst I an sn).
Notation Lk := (Lk I).
Notation G := (G an).
Notation tru := (tru I).
Notation visited := (visited I U an uninterp f bs los pre fargs V).
Notation Sd := (Sd f los).
Notation F := (st V).
Notation yes r s := (Forall (tru r) (l_precond s)).

Lemma vis b : In b bs -> exists s1 s2, visited b s1 s2.
Proof. intros IN. apply (iv_dn _ _ _ _ _ _ _ _ _ _ _ IV b IN (ALL b IN)). Qed.
Lemma okF b : In b bs -> okst (Sd (v_done V)) (F (b_name b)).
Proof. intros IN. eapply done_st; eauto. Qed.

(** ** Positions *)

Definition at_pos (x : string) (n : nat) : Prop := nth_error (v_done V) n = Some x.
Lemma done_nodup : NoDup (v_done V).
Proof. apply (ordered_nodup bs). apply (iv_ord _ _ _ _ _ _ _ _ _ _ _ IV). Qed.
Lemma pos_unique x n m : at_pos x n -> at_pos x m -> n = m.
Proof.
  intros A B. pose proof done_nodup as ND. rewrite NoDup_nth_error in ND. apply ND; [|unfold at_pos in *; congruence].
  apply nth_error_Some. unfold at_pos in A. congruence.
Qed.
Lemma pos_ex b : In b bs -> exists n, at_pos (b_name b) n.
Proof. intros IN. exact (In_nth_error _ _ (ALL b IN)). Qed.
Lemma pos_pred b p n : In b bs -> In p (b_preds b) -> at_pos (b_name b) n -> exists m, at_pos p m /\ m < n.
Proof.
  intros IN P A. pose proof (nth_error_split _ _ A) as (l1 & l2 & E & L).
  destruct (iv_ord _ _ _ _ _ _ _ _ _ _ _ IV l1 _ l2 E) as (b' & B1 & B2 & _ & B3).
  rewrite (block_eq an uninterp f bs los grammars pre SUP GR b' b B1 IN B2) in B3. destruct (In_nth_error _ _ (B3 p P)) as [m M].
  exists m. unfold at_pos. assert (m < length l1) by (apply nth_error_Some; congruence). rewrite E. rewrite nth_error_app1 by auto. split; [exact M | lia].
Qed.

(** ** At most one predecessor of a block is reached *)

Definition next (r : env) (b : string) : option string :=
  match find_block bs b with
  | None => None
  | Some bl =>
      match last_instr (b_instrs bl) with
      | Some (IBr t) => Some t
      | Some (ICondBr (OName c false) t e) =>
          match dget (prims (F b)) c with
          | Some o => match eval I r (o_src o) with Some (VBool true) => Some t | Some (VBool false) => Some e | _ => None end
          | None => None
          end
      | _ => None
      end
  end.
Fixpoint walk (r : env) (n : nat) : option string :=
  match n with O => Some (entry_of f) | S n => match walk r n with Some b => next r b | None => None end end.

Lemma edge_next r b p pc : edge_of bs V b p pc -> Forall (tru r) pc -> next r p = Some b.
Proof.
  intros (pb & FB & H) T. unfold next. rewrite FB. destruct (last_instr (b_instrs pb)) as [[| | | | | | |t|[c []| | |] t e| | ]|]; try destruct H.
  - now subst.
  - destruct H as (E & C). rewrite E. destruct C as [[-> ->]|[-> ->]]; inversion T as [|? ? T1 _]; subst; unfold tru in T1.
    + now rewrite T1.
    + cbn [eval mapO] in T1. destruct (eval I r (o_src x)) as [[| [] | | | ]|]; try discriminate. reflexivity.
Qed.

Lemma edge_true r b p pc : edge_of bs V b p pc -> next r p = Some b -> Forall (tru r) pc.
Proof.
  intros (pb & FB & ED) NX. unfold next in NX. rewrite FB in NX. destruct (find_block_in _ _ _ FB) as [INp _].
  destruct (last_instr (b_instrs pb)) as [[| | | | | | |t|[c []| | |] t e| | ]|] eqn:L; try destruct ED.
  - subst. constructor.
  - destruct H as (E & C). rewrite E in NX.
    assert (TE : t <> e).
    { pose proof (su_edges an uninterp f bs los grammars pre SUP pb INp) as OE. unfold ok_edges in OE. rewrite L in OE.
      destruct (ok_instrs an uninterp (sret_name f) (avail an (b_name pb)) (b_instrs pb)); [|discriminate]. apply andb_true_iff in OE as [OE _].
      apply negb_true_iff, String.eqb_neq in OE. exact OE. }
    destruct (eval I r (o_src x)) as [[| bv | | | ]|] eqn:EX; try discriminate.
    destruct C as [[E1 ->]|[E1 ->]]; (constructor; [|constructor]); unfold tru; destruct bv; try (exfalso; congruence).
    + exact EX.
    + cbn [eval mapO]. rewrite EX. reflexivity.
Qed.

(** a conditional branch goes somewhere *)
Lemma cond_next pb cnd t e r y pc : In pb bs -> fits G r -> last_instr (b_instrs pb) = Some (ICondBr cnd t e) -> edge_of bs V y (b_name pb) pc ->
  next r (b_name pb) = Some t \/ next r (b_name pb) = Some e.
Proof.
  intros IN R L ED. pose proof (edge_term I U an uninterp f bs los grammars pre fargs SUP V y _ pc IV (ALL pb IN) ED) as OC.
  pose proof (find_block_nodup _ _ (su_nd an uninterp f bs los grammars pre SUP GR) IN) as FB. unfold next. rewrite FB, L.
  destruct ED as (pb' & FB' & ED). rewrite FB in FB'. injection FB' as <-. rewrite L in ED. destruct cnd as [c []| | |]; try destruct ED.
  destruct H as (E & C). rewrite E.
  destruct C as [[_ ->]|[_ ->]]; inversion OC as [|? ? OC1 _]; subst; destruct (oc_val _ _ _ _ OC1 r R) as [bv EV].
  - rewrite EV. destruct bv; auto.
  - cbn [eval mapO] in EV. destruct (eval I r (o_src x)) as [[|[]| | |]|]; try discriminate; auto.
Qed.

Lemma s1_yes b s1 s2 r : visited b s1 s2 -> yes r s2 -> yes r s1.
Proof.
  intros [_ _ E _ _ _ _] Y. destruct (header_loops los (b_name b)); [now subst|]. destruct E as (_ & _ & (p' & i & _ & _ & E)). rewrite E in Y.
  apply Forall_app in Y. tauto.
Qed.

(** predecessors of a block where paths meet jump there unconditionally, or directly
    and through a block that does nothing *)
Definition splits (pb : block) (b : block) : Prop :=
  exists cnd t e eb, last_instr (b_instrs pb) = Some (ICondBr cnd t e) /\ In (b_name b, b_name eb) [(t, e); (e, t)] /\ tri bs los pb eb b.
Lemma multi_jump b p : In b bs -> In p (b_preds b) -> (forall q, b_preds b <> [q]) ->
  exists pb, In pb bs /\ b_name pb = p /\ (last_instr (b_instrs pb) = Some (IBr (b_name b)) \/ splits pb b).
Proof.
  intros IN P NP. destruct (gr_preds _ _ _ GR b p IN P) as (pb & ts & G1 & G2 & G3 & G4). exists pb. split; auto. split; auto. unfold targets in G3.
  destruct (last_instr (b_instrs pb)) as [[| | | | | | |t|cnd t e| | ]|] eqn:L; try discriminate G3; injection G3 as <-.
  - destruct G4 as [->|[]]. auto.
  - right. assert (X : exists y, In (b_name b, y) [(t, e); (e, t)]).
    { destruct G4 as [E|[E|[]]]; rewrite <- E; [exists t | exists e]; cbn; auto. }
    destruct X as [y X]. destruct (cond_target an uninterp f bs los grammars pre SUP GR ML pb cnd t e (b_name b) y G1 L X b IN eq_refl) as [E|(_ & eb & E & TR)].
    + exfalso. now apply (NP (b_name pb)).
    + exists cnd, t, e, eb. subst y. auto.
  - destruct G4.
Qed.

(** the block that does nothing has the state of its predecessor *)
Lemma tri_same pb eb b n : tri bs los pb eb b -> sget (F (b_name eb)) n = sget (F (b_name pb)) n.
Proof.
  intros [T1 T2 T3 T4 T5 T6 T7]. destruct (vis eb T1) as (s1 & s2 & VI). rewrite (vi_keep _ _ _ _ _ _ _ _ _ _ _ _ _ VI) by (rewrite T4; intros []).
  pose proof (vi_enter _ _ _ _ _ _ _ _ _ _ _ _ _ VI) as EN. rewrite T7 in EN. subst s2.
  pose proof (vi_merge _ _ _ _ _ _ _ _ _ _ _ _ _ VI) as M. unfold merge_of in M. rewrite T2 in M. destruct M as (pc & _ & _ & SG). apply SG.
Qed.
Lemma tri_edge pb eb b : tri bs los pb eb b -> exists pc, edge_of bs V (b_name eb) (b_name pb) pc.
Proof.
  intros [T1 T2 T3 T4 T5 T6 T7]. destruct (vis eb T1) as (s1 & s2 & VI).
  pose proof (vi_merge _ _ _ _ _ _ _ _ _ _ _ _ _ VI) as M. unfold merge_of in M. rewrite T2 in M. destruct M as (pc & ED & _). eauto.
Qed.
Lemma tri_yes pb eb b r : tri bs los pb eb b -> yes r (F (b_name pb)) -> next r (b_name pb) = Some (b_name eb) -> yes r (F (b_name eb)).
Proof.
  intros [T1 T2 T3 T4 T5 T6 T7] Y NX. destruct (vis eb T1) as (s1 & s2 & VI). rewrite (vi_pre _ _ _ _ _ _ _ _ _ _ _ _ _ VI).
  pose proof (vi_enter _ _ _ _ _ _ _ _ _ _ _ _ _ VI) as EN. rewrite T7 in EN. subst s2.
  pose proof (vi_merge _ _ _ _ _ _ _ _ _ _ _ _ _ VI) as M. unfold merge_of in M. rewrite T2 in M. destruct M as (pc & ED & PC & _). rewrite PC. apply Forall_app. split; auto.
  eapply edge_true; eauto.
Qed.

Lemma merged_facts b s1 r : In b bs -> fits G r -> merge_of f bs pre V b s1 ->
  b_preds b <> [] -> (forall q, b_preds b <> [q]) ->
  (yes r s1 <-> exists p, In p (b_preds b) /\ yes r (F p)) /\
  (forall p n o, junk an n = false -> In p (b_preds b) -> yes r (F p) -> sget (F p) n = Some o ->
     (forall p' o', In p' (b_preds b) -> yes r (F p') -> sget (F p') n = Some o' -> eval I r (o_src o') = eval I r (o_src o)) ->
     exists o', sget s1 n = Some o' /\ eval I r (o_src o') = eval I r (o_src o)).
Proof.
  intros IN R M N0 N1. unfold merge_of in M. destruct (b_preds b) as [|p [|q ps]] eqn:EP; [congruence | exfalso; now apply (N1 p)|].
  destruct M as [NA (pc0 & M)]. rewrite <- EP in *.
  assert (PB : forall p, In p (b_preds b) -> exists pb, In pb bs /\ b_name pb = p).
  { intros p' P. destruct (gr_preds _ _ _ GR b p' IN P) as (pb & _ & A & B & _). eauto. }
  destruct (merged_ok I an sn (Sd (v_done V)) _ _ _ M) as (M1 & M2 & M3 & M4 & M5); auto.
  { rewrite EP. discriminate. }
  { rewrite Forall_map, Forall_forall. intros p' P. destruct (PB p' P) as (pb & A & <-). now apply okF. }
  { rewrite Forall_map, Forall_forall. intros p' P E. destruct (PB p' P) as (pb & A & <-).
    pose proof (iv_bare _ _ _ _ _ _ _ _ _ _ _ IV _ (ALL pb A) E) as B. apply smem_true in B.
    pose proof (su_bare an uninterp f bs los grammars pre SUP b IN) as BA. unfold ok_bare in BA. rewrite EP in BA, P. rewrite forallb_forall in BA.
    specialize (BA _ P). rewrite B in BA. discriminate. }
  split.
  - rewrite (M4 r R), Exists_exists. split.
    + intros (s & S1 & S2). apply in_map_iff in S1 as (p' & <- & P). eauto.
    + intros (p' & P & Y). exists (F p'). split; auto. now apply in_map.
  - intros p' n o J P Y E UN. apply (M5 r (F p') n o J R); auto; [now apply in_map|]. intros s' o' S' Y' E'. apply in_map_iff in S' as (p2 & <- & P2). eauto.
Qed.

(** where control comes from *)
Lemma reached_from b s1 r : In b bs -> fits G r -> merge_of f bs pre V b s1 -> b_preds b <> [] -> yes r s1 ->
  exists p, In p (b_preds b) /\ yes r (F p) /\ next r p = Some (b_name b).
Proof.
  intros IN R M N0 Y. destruct (b_preds b) as [|p [|q ps]] eqn:EP; [congruence| |].
  - unfold merge_of in M. rewrite EP in M. destruct M as (pc & ED & PC & _). rewrite PC in Y. apply Forall_app in Y as [Y1 Y2].
    exists p. split; [now left|]. split; auto. eapply edge_next; eauto.
  - rewrite <- EP. assert (N1 : forall q, b_preds b <> [q]) by (intros q'; rewrite EP; discriminate).
    destruct (merged_facts b s1 r IN R M) as [M1 _]; auto. { rewrite EP. discriminate. }
    apply M1 in Y as (p' & P & Y).
    destruct (multi_jump b p' IN P N1) as (pb & A & <- & [L|(cnd & t & e & eb & L & X & TR)]).
    { exists (b_name pb). split; auto. split; auto. unfold next. rewrite (find_block_nodup _ _ (su_nd an uninterp f bs los grammars pre SUP GR) A), L. reflexivity. }
    destruct (tri_edge _ _ _ TR) as [pc ED]. destruct (cond_next pb cnd t e r _ pc A R L ED) as [NX|NX].
    + destruct X as [X|[X|[]]]; injection X as X1 X2.
      * exists (b_name pb). rewrite <- X1. auto.
      * exists (b_name eb). split; [apply (tr_pred _ _ _ _ _ TR)|]. split; [eapply tri_yes; eauto; congruence|].
        unfold next. rewrite (find_block_nodup _ _ (su_nd an uninterp f bs los grammars pre SUP GR) (tr_in _ _ _ _ _ TR)), (tr_jump _ _ _ _ _ TR). reflexivity.
    + destruct X as [X|[X|[]]]; injection X as X1 X2.
      * exists (b_name eb). split; [apply (tr_pred _ _ _ _ _ TR)|]. split; [eapply tri_yes; eauto; congruence|].
        unfold next. rewrite (find_block_nodup _ _ (su_nd an uninterp f bs los grammars pre SUP GR) (tr_in _ _ _ _ _ TR)), (tr_jump _ _ _ _ _ TR). reflexivity.
      * exists (b_name pb). rewrite <- X1. auto.
Qed.

Definition climbs (r : env) (n : nat) : Prop :=
  forall i, i < n -> exists x y px py, walk r i = Some x /\ walk r (S i) = Some y /\ at_pos x px /\ at_pos y py /\ px < py.
Lemma climbs_lt r n : climbs r n -> forall j i x y px py, i < j -> j <= n -> walk r i = Some x -> walk r j = Some y -> at_pos x px -> at_pos y py -> px < py.
Proof.
  intros C. induction j as [|j IH]; intros i x y px py L1 L2 X Y PX PY; [lia|].
  destruct (C j) as (x' & y' & px' & py' & W1 & W2 & Q1 & Q2 & Q3); [lia|]. rewrite W2 in Y. injection Y as <-. rewrite (pos_unique _ _ _ PY Q2).
  destruct (Nat.eq_dec i j) as [->|NE]; [rewrite W1 in X; injection X as <-; now rewrite (pos_unique _ _ _ PX Q1)|].
  assert (px < px') by (apply (IH i x x'); auto; lia). lia.
Qed.

Lemma no_preds_entry b : In b bs -> b_preds b = [] -> b_name b = entry_of f.
Proof.
  intros IN EP. pose proof (su_bare an uninterp f bs los grammars pre SUP b IN) as BA. unfold ok_bare in BA. rewrite EP, !andb_true_iff in BA.
  destruct BA as [[[E _] _] _]. now apply String.eqb_eq.
Qed.

Lemma on_walk r : fits G r -> forall k b, In b bs -> at_pos (b_name b) k -> yes r (F (b_name b)) -> exists n, walk r n = Some (b_name b) /\ climbs r n.
Proof.
  intros R. induction k as [k IH] using lt_wf_ind. intros b IN AT Y. destruct (vis b IN) as (s1 & s2 & VI).
  rewrite (vi_pre _ _ _ _ _ _ _ _ _ _ _ _ _ VI) in Y. apply (s1_yes _ _ _ _ VI) in Y.
  destruct (b_preds b) as [|p0 ps] eqn:EP.
  - exists 0. cbn. split; [now rewrite (no_preds_entry b IN EP)|]. intros i L. lia.
  - destruct (reached_from b s1 r IN R (vi_merge _ _ _ _ _ _ _ _ _ _ _ _ _ VI)) as (p & P & YP & NX); auto; [congruence|].
    destruct (pos_pred b p k IN P AT) as (m & M1 & M2). destruct (gr_preds _ _ _ GR b p IN P) as (pb & _ & G1 & <- & _).
    destruct (IH m M2 pb G1 M1 YP) as (n & W & C). exists (S n). cbn [walk]. rewrite W. split; auto.
    intros i L. destruct (Nat.eq_dec i n) as [->|NE]; [|apply C; lia]. exists (b_name pb), (b_name b), m, k. cbn [walk]. rewrite W. auto.
Qed.

Lemma one_pred b p q r : In b bs -> fits G r -> (forall x, b_preds b <> [x]) -> In p (b_preds b) -> In q (b_preds b) ->
  yes r (F p) -> yes r (F q) -> p = q \/ forall n, sget (F p) n = sget (F q) n.
Proof.
  intros IN R NP P Q YP YQ.
  assert (SPL : forall pb, splits pb b -> forall n, sget (F p) n = sget (F q) n).
  { intros pb (cnd & t & e & eb & _ & _ & TR) n.
    destruct (tr_all _ _ _ _ _ TR p P) as [-> | ->], (tr_all _ _ _ _ _ TR q Q) as [-> | ->]; rewrite ?(tri_same _ _ _ n TR); reflexivity. }
  destruct (multi_jump b p IN P NP) as (pb & P1 & <- & [P3|P3]); [|right; eauto]. destruct (multi_jump b q IN Q NP) as (qb & Q1 & <- & [Q3|Q3]); [|right; eauto].
  left.
  destruct (pos_ex b IN) as [k K]. destruct (pos_pred b _ k IN P K) as (m & PM & LM). destruct (pos_pred b _ k IN Q K) as (m' & QM & LM').
  destruct (on_walk r R m pb P1 PM YP) as (i & WI & CI). destruct (on_walk r R m' qb Q1 QM YQ) as (j & WJ & CJ).
  assert (NX : forall xb, In xb bs -> last_instr (b_instrs xb) = Some (IBr (b_name b)) -> next r (b_name xb) = Some (b_name b)).
  { intros xb X L. unfold next. now rewrite (find_block_nodup _ _ (su_nd an uninterp f bs los grammars pre SUP GR) X), L. }
  assert (H : forall i j x y px py, i < j -> climbs r j -> walk r i = Some (b_name x) -> In x bs -> last_instr (b_instrs x) = Some (IBr (b_name b)) ->
    walk r j = Some (b_name y) -> at_pos (b_name y) py -> py < k -> at_pos (b_name x) px -> False).
  { intros i0 j0 x y px py L C WX X LX WY AY LY AX.
    assert (WB : walk r (S i0) = Some (b_name b)) by (cbn; rewrite WX; auto).
    destruct (Nat.eq_dec (S i0) j0) as [E|NE].
    - subst j0. rewrite WB in WY. injection WY as E. rewrite E in K. rewrite (pos_unique _ _ _ AY K) in LY. lia.
    - assert (k < py) by (apply (climbs_lt r j0 C j0 (S i0) (b_name b) (b_name y)); auto; lia). lia. }
  destruct (lt_eq_lt_dec i j) as [[L| -> ]|L].
  - exfalso. eapply (H i j pb qb); eauto.
  - congruence.
  - exfalso. eapply (H j i qb pb); eauto.
Qed.

(** ** Going from one block to the next *)

Lemma step_edge b p s1 r : In b bs -> fits G r -> merge_of f bs pre V b s1 -> In p (b_preds b) -> yes r (F p) -> next r p = Some (b_name b) ->
  yes r s1 /\ forall n o, junk an n = false -> sget (F p) n = Some o -> exists o', sget s1 n = Some o' /\ eval I r (o_src o') = eval I r (o_src o).
Proof.
  intros IN R M P Y NX. destruct (b_preds b) as [|p0 [|q ps]] eqn:EP; [destruct P| |].
  - destruct P as [->|[]]. unfold merge_of in M. rewrite EP in M. destruct M as (pc & ED & PC & SG). split.
    + rewrite PC. apply Forall_app. split; auto. eapply edge_true; eauto.
    + intros n o _ E. exists o. rewrite SG. auto.
  - rewrite <- EP in P. assert (N1 : forall q, b_preds b <> [q]) by (intros q'; rewrite EP; discriminate).
    destruct (merged_facts b s1 r IN R M) as [M1 M2]; auto. { rewrite EP. discriminate. }
    split; [apply M1; eauto|]. intros n o J E. apply (M2 p n o J P Y E). intros p' o' P' Y' E'.
    destruct (one_pred b p' p r IN R N1 P' P Y' Y) as [EQ|EQ]; rewrite EQ in E'; congruence.
Qed.

(** registers in states of different blocks that have the same value *)
Definition carries (r : env) (s : lstate) (r' : env) (s' : lstate) (n : name) : Prop :=
  exists o o', sget s n = Some o /\ sget s' n = Some o' /\ eval I r (o_src o) = eval I r' (o_src o').

Variable a : env.

Notation loops := (combine (lf_loops f) los).
(** the registers whose values the head of a loop preserves *)
Definition Kn (rl : raw_loop) (lo : loop_info) (n : name) : Prop := alone loops (rl, lo) = true \/ In n (avail an (rl_header rl)).

Definition within (b : block) (r : env) : Prop :=
  forall k rl lo h s1 s2, loop_at f los k rl lo -> In (b_name b) (loop_blocks rl) -> In h bs -> b_name h = rl_header rl -> visited h s1 s2 ->
    yes r s1 /\ (forall n, In n (avail an (b_name h)) -> sget s2 n <> None) /\
    forall n t1 t2 o, junk an n = false -> Kn rl lo n -> visited b t1 t2 -> (fst n = true -> ~ In (snd n) (lo_havocs lo)) -> sget s1 n = Some o -> carries r s1 r t2 n.

Record at_block (b : block) (r : env) (c : lstore) : Prop := {
  ab_fits : fits G r;
  ab_args : forall x, In x (argn f) -> r x = a x;
  ab_state : forall s1 s2, visited b s1 s2 -> yes r s2 /\ Lk (avail an (b_name b)) s2 r c;
  ab_dead : dead bs b = false;
  ab_loops : within b r }.

Notation vi_d1' := (vi_d1 _ _ _ _ _ _ _ _ _ _ _ _ _).
Notation nd := (su_nd an uninterp f bs los grammars pre SUP GR).

Lemma fv_agree S e r r' : incl (fv e) S -> (forall x, In x S -> r x = r' x) -> eval I r e = eval I r' e.
Proof. intros IN H. apply eval_agree. intros x X. apply H, IN, X. Qed.

Lemma alone_sepd k m rl lo rl' lo' : loop_at f los k rl lo -> loop_at f los m rl' lo' -> k <> m -> alone loops (rl, lo) = true -> sepd (rl, lo) (rl', lo').
Proof.
  intros LA LB N A. unfold alone in A. rewrite forallb_forall in A. specialize (A (rl', lo') (nth_error_In _ _ LB)).
  apply orb_true_iff in A as [A|A]; [|now apply apart_ok]. cbn [fst] in A. apply String.eqb_eq in A. exfalso.
  eapply (headers_differ an uninterp f bs los grammars pre SUP k m); eauto.
Qed.

(** what holds before a loop is entered does not depend on its havocs *)
Lemma havoc_fresh k rl lo h d1 d2 : loop_at f los k rl lo -> alone loops (rl, lo) = true -> b_name h = rl_header rl -> v_done V = d1 ++ b_name h :: d2 ->
  forall x, In x (Sd d1) -> ~ In x (lo_havocs lo).
Proof.
  intros LA AL EH ED x X HX. destruct (loop_parts an uninterp f bs los grammars pre SUP k rl lo LA) as (_ & HV & _). destruct (HV x HX) as (N1 & N2 & _).
  unfold LlProofs5.Sd in X. apply in_app_or in X as [X|[X|X]]; [contradiction | congruence|]. apply in_flat_map in X as (lo' & INl & X).
  destruct (smem (lo_header lo') d1) eqn:SM; [|destruct X]. apply smem_in in SM.
  destruct (lo_numbered los lo' INl) as [m M]. destruct (loop_at_ex f los ML m lo' M) as (rl' & LA' & [MH _]).
  destruct (Nat.eq_dec k m) as [->|NE].
  - unfold loop_at in *. rewrite LA in LA'. injection LA' as <- <-. rewrite MH, <- EH in SM. pose proof done_nodup as ND. rewrite ED in ND.
    apply NoDup_remove_2 in ND. apply ND. apply in_or_app. now left.
  - destruct (alone_sepd _ _ _ _ _ _ LA LA' NE AL) as [_ D]. exact (D x HX X).
Qed.

(** the blocks of a loop come after its header *)
Lemma loop_after k rl lo h : loop_at f los k rl lo -> In h bs -> b_name h = rl_header rl -> forall b, In b bs -> In (b_name b) (loop_blocks rl) ->
  forall i j, at_pos (b_name h) i -> at_pos (b_name b) j -> i <= j.
Proof.
  intros LA INh EH b IN L i j AI AJ. destruct (loop_parts an uninterp f bs los grammars pre SUP k rl lo LA) as (BP & _ & _).
  revert b IN L AJ. induction j as [j IH] using lt_wf_ind. intros b IN L AJ. destruct (BP _ L) as [E|(bl & FB & INC & NE)].
  - rewrite EH, <- E in AI. rewrite (pos_unique _ _ _ AI AJ). lia.
  - rewrite (find_block_nodup _ _ nd IN) in FB. injection FB as <-. destruct (b_preds b) as [|p ps] eqn:EP; [congruence|].
    assert (P : In p (b_preds b)) by (rewrite EP; now left). destruct (pos_pred b p j IN P AJ) as (m & M1 & M2).
    destruct (gr_preds _ _ _ GR b p IN P) as (pb & _ & G1 & <- & _).
    assert (i <= m) by (apply (IH m M2 pb G1); auto; apply INC; now left). lia.
Qed.

(** what the loop writes, apart from its havocs, has no value before it *)
Lemma loop_defs k rl lo h s1 s2 b n o : loop_at f los k rl lo -> In h bs -> b_name h = rl_header rl -> visited h s1 s2 ->
  In b bs -> In (b_name b) (loop_blocks rl) -> sget s1 n = Some o -> (fst n = true -> ~ In (snd n) (lo_havocs lo)) -> ~ In n (defs (b_instrs b)).
Proof.
  intros LA INh EH VI IN L E NH D. destruct (loop_parts an uninterp f bs los grammars pre SUP k rl lo LA) as (_ & _ & DF).
  destruct (DF _ b n L (find_block_nodup _ _ nd IN) D) as [[X Y]|(NA & NR & NSR & NHV & NO)]; [now apply NH|].
  destruct (vi_d1' VI) as (d1 & d2 & ED & _ & DK & _). destruct (DK n o E) as [K|[K|[(b' & B1 & B2 & B3)|[(lo' & B1 & B2 & B3 & B4)|(x & X1 & X2)]]]]; try contradiction.
  - pose proof (NO b' B1 B3) as L'. destruct (In_nth_error _ _ B2) as [j J].
    assert (J' : at_pos (b_name b') j). { unfold at_pos. rewrite ED. rewrite nth_error_app1; auto. apply nth_error_Some. congruence. }
    assert (HP : at_pos (b_name h) (length d1)). { unfold at_pos. rewrite ED, nth_error_app2 by lia. now rewrite Nat.sub_diag. }
    pose proof (loop_after k rl lo h LA INh EH b' B1 L' _ _ HP J'). assert (j < length d1) by (apply nth_error_Some; congruence). lia.
  - exact (NHV lo' B1 B3 B4).
  - exact (NSR x X1 X2).
Qed.

(** a register has one type and one kind *)
Lemma read_kind S s s' x o o' : smem x (a_junk an) = false -> okst S s -> okst S s' -> read_or_load_var s x = Ok o -> read_or_load_var s' x = Ok o' ->
  exists p, sget s (p, x) = Some o /\ sget s' (p, x) = Some o'.
Proof.
  intros J A B R R'. destruct (read_var_get _ _ _ R) as [p P]. destruct (read_var_get _ _ _ R') as [q Q].
  pose proof (os_obj _ _ _ _ _ A _ _ P) as T. pose proof (os_obj _ _ _ _ _ B _ _ Q) as T'.
  assert (NJ : junk an (true, x) = false) by exact J.
  destruct p, q; eauto; exfalso.
  - rewrite (okobj_kind I an sn (su_disj an uninterp f bs los grammars pre SUP) _ _ _ _ T' T) in NJ. discriminate.
  - rewrite (okobj_kind I an sn (su_disj an uninterp f bs los grammars pre SUP) _ _ _ _ T T') in NJ. discriminate.
Qed.

Lemma kind_of S s p x o : okst S s -> smem x (a_junk an) = false -> sget s (p, x) = Some o -> (p, x) = kind an x.
Proof.
  intros OS J E. pose proof (os_obj _ _ _ _ _ OS _ _ E) as T. unfold kind.
  assert (J' : junk an (p, x) = false) by (unfold junk; cbn [fst snd]; rewrite J; apply andb_false_r).
  destruct (okobj_reg I an sn _ _ _ J' T) as [t R]. unfold reg_ty in R. rewrite J' in R. cbn [fst snd] in R. destruct p.
  - destruct (dmem (a_prim an) x) eqn:D; [|reflexivity]. exfalso. apply dmem_some in D as [w W].
    pose proof (su_disj an uninterp f bs los grammars pre SUP) as SD. rewrite forallb_forall in SD. specialize (SD x). 
    assert (IK : In x (dkeys (a_prim an))) by (eapply dget_key; eauto). specialize (SD IK). unfold dmem in SD. rewrite R in SD. discriminate.
  - unfold dmem. rewrite R. reflexivity.
Qed.

(** the variables of a loop get the values they have in [s] *)
Definition havoc_env (r : env) (s : lstate) (hv : list string) : env := fun x =>
  if smem x hv then
    match sget s (true, x) with
    | Some o => eval I r (o_src o)
    | None => match reg_ty an (true, x) with Some t => Some (some_val t) | None => None end
    end
  else r x.

Lemma havoc_other r s hv S e : incl (fv e) S -> (forall x, In x S -> ~ In x hv) -> eval I (havoc_env r s hv) e = eval I r e.
Proof.
  intros GE N. apply (fv_agree S _ _ _ GE). intros x X. unfold havoc_env. 
  assert (smem x hv = false) as -> by (apply smem_not_in; auto). reflexivity.
Qed.
Lemma havoc_fits r s hv S : fits G r -> okst S s -> (forall x, In x hv -> dmem (a_ptr an) x = true /\ smem x (a_junk an) = false) -> fits G (havoc_env r s hv).
Proof.
  intros R OS HP x t E. unfold havoc_env. destruct (smem x hv) eqn:SM; [|auto]. apply smem_in in SM.
  destruct (HP x SM) as [DM NJ]. apply dmem_some in DM as [w W].
  assert (RT : reg_ty an (true, x) = Some w) by (unfold reg_ty, junk; cbn [fst snd]; now rewrite NJ).
  assert (w = t). { pose proof (reg_G an (su_disj an uninterp f bs los grammars pre SUP) _ _ RT) as E'. cbn [snd] in E'. congruence. } subst w.
  destruct (sget s (true, x)) as [o|] eqn:SG.
  - destruct (oo_val _ _ _ _ _ _ (os_obj _ _ _ _ _ OS _ _ SG) r R) as (v & E1 & E2). exists v. split; auto. unfold Pn in E2. now rewrite RT in E2.
  - rewrite RT. exists (some_val t). split; auto. apply some_val_ok. pose proof (su_simple an uninterp f bs los grammars pre SUP _ _ RT) as ST.
    destruct t as [| |[]| | | | |]; try discriminate; reflexivity.
Qed.

Lemma merge_unique b s1 t1 : b_preds b <> [] -> merge_of f bs pre V b s1 -> merge_of f bs pre V b t1 -> forall n, sget t1 n = sget s1 n.
Proof.
  intros NP A B n. unfold merge_of in *. destruct (b_preds b) as [|p [|q ps]]; [congruence| |].
  - destruct A as (_ & _ & _ & A), B as (_ & _ & _ & B). now rewrite A, B.
  - destruct A as (_ & _ & [_ A1 A2]), B as (_ & _ & [_ B1 B2]). unfold sget. rewrite A1 in B1. rewrite A2 in B2. injection B1 as ->. injection B2 as ->. reflexivity.
Qed.
Lemma header_preds b : In b bs -> header_loops los (b_name b) <> [] -> b_preds b <> [].
Proof.
  intros IN H E. pose proof (su_bare an uninterp f bs los grammars pre SUP b IN) as BA. unfold ok_bare in BA. rewrite E, !andb_true_iff in BA.
  destruct BA as [_ NH]. apply negb_true_iff in NH. apply (not_header an uninterp f bs los grammars pre SUP ML) in NH. contradiction.
Qed.

(** ** Loops in loops *)

Lemma nested_ok k rl lo : loop_at f los k rl lo -> alone loops (rl, lo) = false -> ok_nested an f bs los grammars k (rl, lo) = true.
Proof.
  intros LA NA. destruct (sup_all an uninterp f bs los grammars pre SUP) as (_ & _ & _ & _ & _ & _ & _ & _ & _ & _ & H). unfold ok_nesting in H.
  rewrite forallb_forall in H. specialize (H (k, (rl, lo))). cbn [fst snd] in H. rewrite NA in H. apply H. clear - LA. unfold loop_at in LA.
  revert LA. generalize (combine (lf_loops f) los). intros l. change k with (0 + k) at 2. generalize 0. revert k. induction l as [|p l IH]; intros k n E; [destruct k; discriminate|].
  cbn [length seq combine]. destruct k as [|k]; cbn [nth_error] in E.
  - injection E as ->. left. now rewrite Nat.add_0_r.
  - right. replace (n + S k) with (S n + k) by lia. now apply IH.
Qed.

Section Table.
Variables (hv : list string) (T : dict (list name)).
Hypothesis TB : forallb (ok_table an f bs los grammars hv T) bs = true.
Hypothesis HA : forall x, In x hv -> ~ In x (argn f).

Definition cl_at (s : lstate) (Y : list name) : Prop := Forall (cleanx hv) (l_precond s) /\ Cl hv s Y.

Lemma gconds S s : okst S s -> Forall (cleanx hv) (l_precond s) -> Forall (gcond hv) (l_precond s).
Proof.
  intros OS C. pose proof (os_pre _ _ _ _ _ OS) as P. rewrite Forall_forall in *. intros e E. split; [apply (oc_good _ _ _ _ (P e E)) | auto].
Qed.

Lemma into_clean b s1 Y0 : In b bs -> b_preds b <> [] -> merge_of f bs pre V b s1 ->
  (forall p, In p (b_preds b) -> clean_into bs T p Y0 = true) ->
  (forall pb Y u1 u2, In (b_name pb) (b_preds b) -> In pb bs -> dget T (b_name pb) = Some Y -> visited pb u1 u2 -> cl_at u2 Y) ->
  cl_at s1 Y0.
Proof.
  intros IN NP M CI IH.
  assert (PF : forall p, In p (b_preds b) -> cl_at (F p) Y0 /\ forall pc, edge_of bs V (b_name b) p pc -> Forall (cleanx hv) pc).
  { intros p P. specialize (CI p P). unfold clean_into in CI. destruct (clean_out bs T p) as [Y'|] eqn:CO; [|discriminate]. rewrite forallb_forall in CI.
    unfold clean_out in CO. destruct (dget T p) as [Y|] eqn:TP; [|discriminate]. destruct (find_block bs p) as [pb|] eqn:FB; [|discriminate].
    destruct (find_block_in _ _ _ FB) as [INp <-]. destruct (vis pb INp) as (u1 & u2 & VP). destruct (IH pb Y u1 u2 P INp TP VP) as [A B].
    pose proof (vi_cl _ _ _ _ _ _ _ _ _ _ _ _ _ VP hv Y B) as B'. set (Y2 := fold_left clean1 (b_instrs pb) Y) in *.
    assert (EY : Y' = Y2). { destruct (last_instr (b_instrs pb)) as [[| | | | | | |t|[c []| | |] t e| | ]|]; try discriminate; [congruence|]. destruct (nmem (false, c) Y2); congruence. }
    subst Y'. split; [split|].
    - rewrite (vi_pre _ _ _ _ _ _ _ _ _ _ _ _ _ VP). exact A.
    - intros n o x INn. apply B'. apply nmem_in. auto.
    - intros pc (pb' & FB' & ED). rewrite FB in FB'. injection FB' as <-.
      destruct (last_instr (b_instrs pb)) as [[| | | | | | |t|[c []| | |] t e| | ]|]; try destruct ED; [subst; constructor|].
      destruct (nmem (false, c) Y2) eqn:NM; [|discriminate]. apply nmem_in in NM. destruct H as (E & C).
      assert (CX : cleanx hv (o_src x)) by (intros y YX; apply (B' (false, c) x y NM E YX)).
      destruct C as [[_ ->]|[_ ->]]; (constructor; [|constructor]); auto. intros y YX. apply CX. cbn in YX. now rewrite app_nil_r in YX. }
  unfold merge_of in M. destruct (b_preds b) as [|p [|q ps]] eqn:EP; [congruence| |].
  - destruct M as (pc & ED & PC & SG). destruct (PF p (or_introl eq_refl)) as [[A B] C]. split.
    + rewrite PC. apply Forall_app. auto.
    + intros n o x INn E. rewrite SG in E. eapply B; eauto.
  - destruct M as [_ (pc0 & M)]. rewrite <- EP in *.
    assert (PB : forall p, In p (b_preds b) -> exists pb, In pb bs /\ b_name pb = p).
    { intros p' P. destruct (gr_preds _ _ _ GR b p' IN P) as (pb & _ & A & B & _). eauto. }
    destruct (merged_clean hv _ _ _ Y0 M) as [A B].
    + rewrite EP. discriminate.
    + rewrite Forall_map, Forall_forall. intros p' P. destruct (PB p' P) as (pb & A & <-). destruct (okF pb A). auto.
    + rewrite Forall_map, Forall_forall. intros p' P E. destruct (PB p' P) as (pb & A & <-).
      pose proof (iv_bare _ _ _ _ _ _ _ _ _ _ _ IV _ (ALL pb A) E) as B. apply smem_true in B.
      pose proof (su_bare an uninterp f bs los grammars pre SUP b IN) as BA. unfold ok_bare in BA. rewrite EP in BA, P. rewrite forallb_forall in BA.
      specialize (BA _ P). rewrite B in BA. discriminate.
    + rewrite Forall_map, Forall_forall. intros p' P. destruct (PB p' P) as (pb & A & <-). apply (gconds _ _ (okF pb A)). exact (proj1 (proj1 (PF _ P))).
    + rewrite Forall_map, Forall_forall. intros p' P. exact (proj2 (proj1 (PF _ P))).
    + split; auto. eapply Forall_impl; [|exact A]. now intros e [].
Qed.

(** the registers in the table are clean *)
Lemma table_at i : forall b Y s1 s2, at_pos (b_name b) i -> In b bs -> dget T (b_name b) = Some Y -> visited b s1 s2 -> cl_at s2 Y.
Proof.
  induction i as [i IH] using lt_wf_ind. intros b Y s1 s2 AT IN TY VI.
  rewrite forallb_forall in TB. pose proof (TB b IN) as TO. unfold ok_table in TO. rewrite TY in TO. apply andb_true_iff in TO as [TP TH].
  pose proof (vi_merge _ _ _ _ _ _ _ _ _ _ _ _ _ VI) as M. pose proof (vi_enter _ _ _ _ _ _ _ _ _ _ _ _ _ VI) as EN.
  destruct (b_preds b) as [|p0 ps] eqn:EP.
  - assert (HL : header_loops los (b_name b) = []).
    { destruct (header_loops los (b_name b)) eqn:HL; auto. exfalso. apply (header_preds b IN); [rewrite HL; discriminate | exact EP]. }
    rewrite HL in EN. subst s2. unfold merge_of in M. rewrite EP in M. destruct M as [PC SG]. rewrite forallb_forall in TP. split.
    + rewrite PC. eapply Forall_impl; [|exact PRE]. intros e OC x X HX. apply (HA x HX). apply (oc_good _ _ _ _ OC), X.
    + intros n o x INn E X. specialize (TP n INn). apply nmem_in in TP. pose proof (arg_regs_argn f _ TP) as AN.
      apply (arg_regs_in an uninterp f bs los grammars pre SUP) in TP as (o' & O1 & O2). specialize (SG o' O1). rewrite O2, E in SG. injection SG as ->.
      pose proof (su_args an uninterp f bs los grammars pre SUP) as SA. rewrite Forall_forall in SA. destruct (SA o' O1) as (y & t & -> & _).
      destruct X as [<-|[]]. intros HX. apply (HA y HX). rewrite <- O2 in AN. exact AN.
  - assert (NP : b_preds b <> []) by (rewrite EP; discriminate). rewrite <- EP in TP.
    set (hs := filter (fun q : nat * loop_info => (lo_header (snd q) =? b_name b)%string) (numbered los)) in *.
    set (Y0 := filter (fun n => negb (existsb (fun q => havoc_of (snd q) n) hs)) Y) in *.
    rewrite forallb_forall in TP.
    destruct (into_clean b s1 Y0 IN NP M) as [A B].
    { exact TP. }
    { intros pb Yp u1 u2 P INp TYp VP. destruct (pos_pred b _ i IN P AT) as (m & M1 & M2). eapply (IH m M2); eauto. }
    destruct (header_loops_one an uninterp f bs los grammars pre SUP ML (b_name b)) as [HL|([k lo] & HL & Q1 & Q2)]; rewrite HL in EN.
    + subst s2. split; auto. intros n o x INn. apply B. unfold Y0. apply filter_In. split; auto.
      assert (hs = []) as ->; [|reflexivity]. unfold hs. unfold header_loops in HL.
      destruct (filter _ _) as [|q l] eqn:FE; auto. exfalso. assert (INq : In q (q :: l)) by now left. rewrite <- FE in INq. apply filter_In in INq as [I1 I2].
      assert (X : In q (filter (fun p : nat * loop_info => (b_name b =? lo_header (snd p))%string) (numbered los))); [|rewrite HL in X; destruct X].
      apply filter_In. split; auto. rewrite String.eqb_sym. exact I2.
    + cbn [snd] in Q2. destruct EN as (EN1 & EN2 & (p & e & EP' & EI & EPC)). cbn [fst snd] in *.
      assert (INh : In (k, lo) hs) by (apply filter_In; split; auto; cbn [snd]; rewrite Q2; apply String.eqb_refl).
      assert (HU : forall q, In q hs -> q = (k, lo)).
      { intros [k2 lo2] I2. apply filter_In in I2 as [I1 I2]. cbn [snd] in I2. apply String.eqb_eq in I2.
        destruct (header_unique an uninterp f bs los grammars pre SUP ML _ _ _ _ I1 Q1) as [-> ->]; [congruence | reflexivity]. }
      rewrite forallb_forall in TH. specialize (TH _ INh). cbn [fst snd] in TH. apply andb_true_iff in TH as [TH1 TH2]. rewrite forallb_forall in TH1.
      destruct (scope_names f grammars k lo) as [l|] eqn:SN; [|discriminate]. rewrite forallb_forall in TH2.
      assert (CY : Cl hv s2 Y).
      { intros n o x INn E X. specialize (TH1 n INn). destruct (havoc_of lo n) eqn:HO.
        - unfold havoc_of in HO. apply andb_true_iff in HO as [H1 H2]. apply smem_in in H2. destruct n as [p1 x1]. cbn [fst snd] in *. subst p1.
          destruct (EN2 x1 H2) as (u & _ & E2). rewrite E in E2. injection E2 as ->. destruct X as [<-|[]]. cbn [negb orb] in TH1. apply negb_true_iff in TH1. now apply smem_not_in.
        - rewrite EN1 in E. 2:{ intros F1 F2. unfold havoc_of in HO. rewrite F1 in HO. apply smem_true in F2. rewrite F2 in HO. discriminate. }
          apply (B n o x); auto. unfold Y0. apply filter_In. split; auto. apply negb_true_iff. destruct (existsb _ hs) eqn:EX; auto.
          apply existsb_exists in EX as (q & I1 & I2). rewrite (HU q I1) in I2. cbn [snd] in I2. congruence. }
      split; auto. rewrite EPC. apply Forall_app. split; auto. constructor; [|constructor].
      destruct (lpred_shape _ _ _ EI) as (os & MO & ->).
      destruct (vi_d1' VI) as (d1 & d2 & ED & _ & _ & OS & _).
      destruct (proj1 (iv_named _ _ _ _ _ _ _ _ _ _ _ IV) _ _ EP') as [_ PA]. unfold pargs in PA.
      assert (CO : Forall (fun o => cleanx hv (o_src o)) os).
      { clear EI EPC EP'. revert os MO PA. induction (p_args p) as [|v vs IHv]; intros os MO PA; cbn [mapR] in MO; [injection MO as <-; constructor|].
        ok MO o Eo. ok MO ol Eol. injection MO as <-. ok Eo x Ex. constructor; [|apply IHv; auto; intros w y INw; apply PA; now right].
        destruct (PA v x (or_introl eq_refl) Ex) as (NJ & _ & _ & SC). specialize (TH2 x (SC lo l Q1 SN)). unfold has_kind in TH2. apply nmem_in in TH2.
        destruct (read_var_get _ _ _ Eo) as [pp G1]. rewrite <- (kind_of _ _ _ _ _ OS NJ G1) in TH2. intros y YX. apply (CY _ o y TH2 G1 YX). }
      intros x X. cbn [fv flat_map] in X. clear - CO X. assert (X' : In x (flat_map fv (map o_src os))) by exact X.
      apply in_flat_map in X' as (e & E1 & E2). apply in_map_iff in E1 as (o & <- & O1). rewrite Forall_forall in CO. exact (CO o O1 x E2).
Qed.
End Table.



(** what is known when a loop is entered does not depend on what the loop changes *)
Lemma header_clean k rl lo t s1 s2 : loop_at f los k rl lo -> In t bs -> b_name t = rl_header rl -> visited t s1 s2 ->
  (forall e, In e (l_precond s1) -> cleanx (lo_havocs lo) e) /\
  (forall n o, junk an n = false -> Kn rl lo n -> (fst n = true -> ~ In (snd n) (lo_havocs lo)) -> sget s1 n = Some o -> cleanx (lo_havocs lo) (o_src o)).
Proof.
  intros LA INt EH VI. destruct (vi_d1' VI) as (d1 & d2 & ED & OS & _). destruct (alone loops (rl, lo)) eqn:AL.
  - pose proof (havoc_fresh k rl lo t d1 d2 LA AL EH ED) as HF. split.
    + intros e E x X. apply HF. pose proof (os_pre _ _ _ _ _ OS) as OP. rewrite Forall_forall in OP. apply (oc_good _ _ _ _ (OP e E)), X.
    + intros n o J _ N E. destruct (oo_good _ _ _ _ _ _ (os_obj _ _ _ _ _ OS _ _ E)) as (OV & _). intros y X. apply OV in X. rename X into Y0.
      unfold ns in Y0. rewrite J in Y0. cbn [orb] in Y0.
      destruct (fst n && is_sret sn (snd n)) eqn:SR; [|now apply HF]. apply andb_true_iff in SR as [SR1 SR2]. unfold xs in Y0. unfold is_sret in SR2.
      destruct sn as [z|]; [|now apply HF]. destruct Y0 as [<-|Y0]; [|now apply HF]. apply String.eqb_eq in SR2. rewrite <- SR2. now apply N.
  - pose proof (nested_ok k rl lo LA AL) as NO. unfold ok_nested in NO. cbn [snd] in NO.
    destruct (loop_parts an uninterp f bs los grammars pre SUP k rl lo LA) as (_ & HV & _).
    assert (MH : lo_header lo = rl_header rl).
    { unfold loop_at in LA. clear - ML LA. revert k LA. induction ML as [|x y xs ys [M _] FF IH]; intros k LA; [destruct k; discriminate|]. destruct k as [|k]; cbn in LA; [now injection LA as <- <- | eauto]. }
    destruct (dget (a_clean an) (lo_header lo)) as [T|]; [|discriminate].
    rewrite MH, <- EH, (find_block_nodup _ _ nd INt) in NO. destruct (scope_names f grammars k lo) as [l|]; [|discriminate].
    rewrite !andb_true_iff, !forallb_forall in NO. destruct NO as [[N1 N2] _].
    assert (NP : b_preds t <> []).
    { apply header_preds; auto. destruct (header_loops_one an uninterp f bs los grammars pre SUP ML (b_name t)) as [HL|(q & HL & _)]; [|rewrite HL; discriminate].
      exfalso. apply (not_header an uninterp f bs los grammars pre SUP ML) in HL. unfold is_header in HL.
      assert (existsb (fun lo => (b_name t =? lo_header lo)%string) los = true); [|congruence]. apply existsb_exists. exists lo.
      split; [unfold loop_at in LA; apply nth_error_In in LA; apply in_combine_r in LA; exact LA | rewrite EH, MH; apply String.eqb_refl]. }
    destruct (into_clean (lo_havocs lo) T t s1 (filter (fun n => negb (havoc_of lo n)) (avail an (b_name t))) INt NP (vi_merge _ _ _ _ _ _ _ _ _ _ _ _ _ VI)) as [A B].
    { exact N2. }
    { intros pb Y u1 u2 P INp TY VP. destruct (pos_ex pb INp) as [i AI]. eapply (table_at (lo_havocs lo) T); eauto.
      - apply forallb_forall. exact N1.
      - intros x X. apply (HV x X). }
    split; [rewrite Forall_forall in A; exact A|]. intros n o J [K|K] NH E; [congruence|]. intros x X. apply (B n o x); auto.
    apply filter_In. split; [now rewrite EH|]. apply negb_true_iff. unfold havoc_of. destruct (fst n) eqn:FN; auto. cbn [andb]. apply smem_not_in. auto.
Qed.

(** ** The conditions hold *)
Hypothesis HOLD : forall r b e, In b bs -> fits G r -> In e (l_asserts (F (b_name b))) -> tru r e.

Lemma guarded_true b r i e : In b bs -> fits G r -> yes r (F (b_name b)) -> guarded (F (b_name b)) i e -> In e (l_asserts (F (b_name b))) -> tru r i.
Proof.
  intros IN R Y GD INe. pose proof (HOLD r b e IN R INe) as T. destruct GD as [[_ ->]|(c & C & ->)]; auto.
  destruct (and_okcond I an _ _ _ C (os_pre _ _ _ _ _ (okF b IN))) as [_ CT]. apply (CT r R) in Y. unfold tru, LlProofs3.tru in *.
  cbn [eval mapO] in T. rewrite Y in T. destruct (eval I r i) as [[| [] | | | ]|]; try discriminate; auto.
Qed.

Lemma asserted_true b r k : In b bs -> fits G r -> yes r (F (b_name b)) -> asserted f V (b_name b) k ->
  exists p i, dget (v_preds V) (inv_name fn k) = Some p /\ lpred_call p (F (b_name b)) = Ok i /\ tru r i.
Proof. intros IN R Y (p & i & e & A & B & C & D). exists p, i. split; auto. split; auto. eapply guarded_true; eauto. Qed.

(** ** Entering a loop, from outside or from its latch *)
Lemma last_rev (is : list instr) : last_instr is = match rev is with i :: _ => Some i | [] => None end.
Proof.
  clear. induction is as [|i is IH]; [reflexivity|]. destruct is as [|i2 is]; [reflexivity|]. change (last_instr (i :: i2 :: is)) with (last_instr (i2 :: is)).
  rewrite IH. change (rev (i :: i2 :: is)) with (rev (i2 :: is) ++ [i]). cbn [rev]. destruct (rev is) as [|x l]; reflexivity.
Qed.
Lemma fixed_cond is t : fixed_target is = Some t -> exists c x y, last_instr is = Some (ICondBr c x y).
Proof.
  clear. unfold fixed_target. rewrite last_rev. destruct (rev is) as [|i1 l]; [discriminate|]. destruct i1 as [| | | | | | | |[? []| | |]| | ]; try discriminate. eauto.
Qed.
Lemma dead_header b : In b bs -> dead bs b = true -> header_loops los (b_name b) = [].
Proof.
  intros IN D. unfold dead in D. destruct (b_preds b) as [|p []] eqn:EP; try discriminate. destruct (find_block bs p) as [pb|] eqn:FB; [|discriminate].
  destruct (fixed_target (b_instrs pb)) as [t|] eqn:FT; [|discriminate]. destruct (fixed_cond _ _ FT) as (c & x & y & L).
  destruct (gr_preds _ _ _ GR b p IN) as (pb' & ts & G1 & G2 & G3 & G4); [rewrite EP; now left|].
  rewrite <- G2, (find_block_nodup _ _ nd G1) in FB. injection FB as ->. unfold targets in G3. rewrite L in G3. injection G3 as <-.
  pose proof (su_edges an uninterp f bs los grammars pre SUP pb G1) as OE. unfold ok_edges in OE. rewrite L in OE.
  destruct (ok_instrs an uninterp (sret_name f) (avail an (b_name pb)) (b_instrs pb)); [|discriminate]. apply andb_true_iff in OE as [_ OE].
  rewrite forallb_forall in OE. assert (Y : exists z, In (b_name b, z) [(x, y); (y, x)]) by (destruct G4 as [<-|[<-|[]]]; [exists x | exists y]; cbn; auto).
  destruct Y as [z Y]. specialize (OE _ Y). cbn beta iota in OE. rewrite !andb_true_iff, negb_true_iff in OE. apply (not_header an uninterp f bs los grammars pre SUP ML). tauto.
Qed.

(** the head of a loop inside another one *)
Lemma head_inside k rl lo k' rl' lo' : loop_at f los k rl lo -> loop_at f los k' rl' lo' -> k <> k' -> In (rl_header rl) (loop_blocks rl') ->
  within_loop an (rl, lo) (rl', lo') /\ forall n, Kn rl' lo' n -> (fst n = true -> ~ In (snd n) (lo_havocs lo')) -> In n (avail an (rl_header rl)).
Proof.
  intros LA LA' NE IN.
  assert (WL : within_loop an (rl, lo) (rl', lo')).
  { destruct (loops_pair an uninterp f bs los grammars pre SUP _ _ _ _ _ _ LA LA' NE) as [[D _]|[[D _]|D]]; auto; exfalso; cbn [fst] in D.
    - apply (D (rl_header rl)); [now left | exact IN].
    - exact (D IN). }
  split; auto. destruct WL as (_ & _ & _ & W4). intros n [K|K] NH.
  - exfalso. destruct (alone_sepd _ _ _ _ _ _ LA' LA (not_eq_sym NE) K) as [D _]. apply (D (rl_header rl)); [exact IN | now left].
  - destruct (W4 n K) as [[A B]|A]; auto. exfalso. now apply NH.
Qed.

Lemma enter_header t q k rl lo r c X : loop_at f los k rl lo -> In t bs -> In q bs -> header_loops los (b_name t) = [(k, lo)] ->
  fits G r -> (forall x, In x (argn f) -> r x = a x) -> yes r (F (b_name q)) -> asserted f V (b_name q) k ->
  Lk X (F (b_name q)) r c -> incl (avail an (b_name t)) X ->
  (forall s1 s2, visited t s1 s2 -> yes r s1 /\ (forall n, In n (avail an (b_name t)) -> sget s2 n <> None) /\
     forall n o o', junk an n = false -> Kn rl lo n -> (fst n = true -> ~ In (snd n) (lo_havocs lo)) -> sget s1 n = Some o -> sget (F (b_name q)) n = Some o' -> eval I r (o_src o) = eval I r (o_src o')) ->
  (forall k' rl' lo' h w1 w2, loop_at f los k' rl' lo' -> k <> k' -> In (b_name t) (loop_blocks rl') -> In h bs -> b_name h = rl_header rl' -> visited h w1 w2 ->
     yes r w1 /\ (forall n, In n (avail an (b_name h)) -> sget w2 n <> None) /\
     forall n s1 s2 o, junk an n = false -> Kn rl' lo' n -> (fst n = true -> ~ In (snd n) (lo_havocs lo')) -> visited t s1 s2 -> sget w1 n = Some o ->
       exists o', sget s1 n = Some o' /\ eval I r (o_src o) = eval I r (o_src o')) ->
  at_block t (havoc_env r (F (b_name q)) (lo_havocs lo)) c.
Proof.
  intros LA INt INq HL R RA Y AS L INC SV OUT. set (hv := lo_havocs lo). set (r' := havoc_env r (F (b_name q)) hv).
  destruct (header_loops_one an uninterp f bs los grammars pre SUP ML (b_name t)) as [E|(q0 & E & Q1 & Q2)]; [congruence|].
  rewrite HL in E. injection E as <-. cbn [snd] in Q2.
  destruct (loop_at_ex f los ML k lo Q1) as (rl0 & LA0 & [MH MT]). assert (rl0 = rl) by (unfold loop_at in *; congruence). subst rl0.
  destruct (loop_parts an uninterp f bs los grammars pre SUP k rl lo LA) as (_ & HV & _).
  assert (EH : b_name t = rl_header rl) by congruence.
  assert (R' : fits G r'). { eapply havoc_fits; [exact R | apply okF; exact INq | intros x X0; destruct (HV x X0) as (_ & _ & H1 & H2 & _); auto]. }
  (* the values in the state at the header *)
  assert (VAL : forall s1 s2 n o o', junk an n = false -> (fst n = true /\ In (snd n) hv) \/ Kn rl lo n -> visited t s1 s2 -> sget s2 n = Some o -> sget (F (b_name q)) n = Some o' -> eval I r' (o_src o) = eval I r (o_src o')).
  { intros s1 s2 n o o' J KN VI E E'. destruct (SV s1 s2 VI) as (_ & _ & SV'). pose proof (vi_enter _ _ _ _ _ _ _ _ _ _ _ _ _ VI) as EN. rewrite HL in EN.
    destruct EN as (EN1 & EN2 & _). cbn [snd] in *.
    assert (NH : (fst n = true -> ~ In (snd n) hv) -> eval I r' (o_src o) = eval I r (o_src o')).
    { intros N. assert (KN' : Kn rl lo n) by (destruct KN as [[N1 N2]|KN]; [exfalso; now apply N | exact KN]).
      rewrite EN1 in E by exact N. rewrite <- (SV' n o o' J KN' N E E'). eapply havoc_other; [apply incl_refl|].
      exact (proj2 (header_clean k rl lo t s1 s2 LA INt EH VI) n o J KN' N E). }
    destruct n as [[] x]; [|apply NH; discriminate]. destruct (in_dec string_dec x hv) as [X0|X0]; [|apply NH; auto].
    destruct (EN2 x X0) as (u & _ & E2). rewrite E in E2. injection E2 as ->. cbn [var_obj o_src]. unfold r'. change (havoc_env r (F (b_name q)) hv x = eval I r (o_src o')).
    unfold havoc_env. apply smem_true in X0. now rewrite X0, E'. }
  assert (Y1 : forall s1 s2, visited t s1 s2 -> yes r' s1).
  { intros s1 s2 VI. destruct (SV s1 s2 VI) as (YS & _). destruct (vi_d1' VI) as (d1 & d2 & ED & OS & _).
    rewrite Forall_forall in YS |- *. intros e IN. unfold tru, LlProofs3.tru.
    unfold r'. rewrite (havoc_other _ _ _ (fv e)); [apply (YS e IN) | apply incl_refl|]. exact (proj1 (header_clean k rl lo t s1 s2 LA INt EH VI) e IN). }
  constructor; auto; [| |destruct (dead bs t) eqn:D; [rewrite (dead_header t INt D) in HL; discriminate | reflexivity]|].
  - intros x X0. unfold r', havoc_env. destruct (smem x hv) eqn:SM; [|auto]. apply smem_in in SM. destruct (HV x SM) as (N & _). contradiction.
  - intros s1 s2 VI. pose proof (vi_enter _ _ _ _ _ _ _ _ _ _ _ _ _ VI) as EN. rewrite HL in EN. destruct EN as (EN1 & EN2 & (p & i & EP & EI & EPC)). cbn [fst snd] in *.
    destruct (SV s1 s2 VI) as (_ & AV & _). split.
    + rewrite EPC. apply Forall_app. split; [eapply Y1; eauto|]. constructor; [|constructor].
      destruct (asserted_true q r k INq R Y AS) as (p' & i' & EP' & EI' & TI). rewrite EP in EP'. injection EP' as <-.
      destruct (lpred_shape _ _ _ EI) as (os & M & ->). destruct (lpred_shape _ _ _ EI') as (os' & M' & ->).
      assert (OS2 : okst (Sd (v_done V)) s2).
      { destruct (vi_d1' VI) as (d1 & d2 & ED & _ & _ & OS & _). eapply okst_weaken; [|exact OS]. apply Sd_weaken. rewrite ED. intros x. rewrite !in_app_iff. cbn. tauto. }
      destruct (proj1 (iv_named _ _ _ _ _ _ _ _ _ _ _ IV) _ _ EP) as [_ PA]. unfold pargs in PA.
      assert (EQ : mapO (eval I r') (map o_src os) = mapO (eval I r) (map o_src os')).
      { clear EI EI' TI EPC EP. revert os os' M M' PA. induction (p_args p) as [|v vs IH]; intros os os' M M' PA; cbn [mapR] in M, M'.
        - injection M as <-. injection M' as <-. reflexivity.
        - ok M o Eo. ok M ol Eol. injection M as <-. ok M' o' Eo'. ok M' ol' Eol'. injection M' as <-. ok Eo x Ex. rewrite Ex in Eo'. cbn [bindR] in Eo'.
          destruct (PA v x (or_introl eq_refl) Ex) as (NJ & _ & _ & SC).
          destruct (read_kind _ _ _ _ _ _ NJ OS2 (okF q INq) Eo Eo') as (pp & G1 & G2).
          assert (J : junk an (pp, x) = false) by (unfold junk; cbn; rewrite NJ; apply andb_false_r).
          assert (KN : (fst (pp, x) = true /\ In (snd (pp, x)) hv) \/ Kn rl lo (pp, x)).
          { destruct (alone loops (rl, lo)) eqn:AL; [right; now left|]. pose proof (nested_ok k rl lo LA AL) as NO. unfold ok_nested in NO. cbn [snd] in NO.
            destruct (dget (a_clean an) (lo_header lo)); [|discriminate]. destruct (find_block bs (lo_header lo)); [|discriminate].
            destruct (scope_names f grammars k lo) as [sc|] eqn:SN; [|discriminate]. rewrite !andb_true_iff, !forallb_forall in NO. destruct NO as [_ NO].
            specialize (NO x (SC lo sc Q1 SN)). pose proof (kind_of _ _ _ _ _ OS2 NJ G1) as KD. apply orb_true_iff in NO as [NO|NO].
            - left. apply smem_in in NO. cbn [fst snd]. split; auto. destruct (HV x NO) as (_ & _ & DP & _). unfold kind in KD. injection KD as ->.
              destruct (dmem (a_prim an) x) eqn:DM; [|reflexivity]. exfalso. apply dmem_some in DM as [w W].
              pose proof (su_disj an uninterp f bs los grammars pre SUP) as SD. rewrite forallb_forall in SD. specialize (SD x (dget_key _ _ _ _ W)). rewrite DP in SD. discriminate.
            - right. right. unfold has_kind in NO. apply nmem_in in NO. rewrite <- MH, KD. exact NO. }
          cbn [map mapO]. rewrite (VAL s1 s2 (pp, x) o o' J KN VI G1 G2), (IH _ _ Eol Eol'); [reflexivity|]. intros w y INw. apply PA. now right. }
      unfold tru, LlProofs3.tru in *. change (match mapO (eval I r') (map o_src os) with Some vs => i_call I (p_name p) vs | None => None end = Some (VBool true)).
      change (match mapO (eval I r) (map o_src os') with Some vs => i_call I (p_name p) vs | None => None end = Some (VBool true)) in TI. now rewrite EQ.
    + intros n N. destruct (L n (INC n N)) as (o' & w & G1 & G2 & G3). destruct (sget s2 n) as [o|] eqn:E; [|exfalso; now apply (AV n N)].
      exists o, w. split; auto. split; auto.
      rewrite (VAL s1 s2 n o o' (su_avail an uninterp f bs los grammars pre SUP t n INt N)); [exact G3 | right; right; now rewrite <- EH | exact VI | exact E | exact G1].
  - intros k' rl' lo' h s1 s2 LA' IN' INh EH' VI. destruct (Nat.eq_dec k k') as [<-|NE].
    + unfold loop_at in LA, LA'. rewrite LA in LA'. injection LA' as <- <-.
      assert (h = t) by (eapply (block_eq an uninterp f bs los grammars pre SUP GR); eauto; congruence). subst h.
      split; [eapply Y1; eauto|]. split; [apply (SV s1 s2 VI)|]. intros n t1 t2 o _ _ VI' NH E.
      pose proof (vi_enter _ _ _ _ _ _ _ _ _ _ _ _ _ VI') as EN. rewrite HL in EN. destruct EN as (EN1 & _). cbn [snd] in EN1.
      exists o, o. split; auto. split; auto. rewrite EN1 by exact NH.
      rewrite (merge_unique t s1 t1); [exact E | apply header_preds; auto; rewrite HL; discriminate | apply (vi_merge _ _ _ _ _ _ _ _ _ _ _ _ _ VI) | apply (vi_merge _ _ _ _ _ _ _ _ _ _ _ _ _ VI')].
    + destruct (OUT k' rl' lo' h s1 s2 LA' NE IN' INh EH' VI) as (O1 & O2 & O3). pose proof (header_clean k' rl' lo' h s1 s2 LA' INh EH' VI) as [C1 C2].
      rewrite EH in IN'. destruct (head_inside _ _ _ _ _ _ LA LA' NE IN') as [(_ & _ & W3 & _) HK]. cbn [snd] in W3.
      assert (TO : forall e, cleanx (lo_havocs lo') e -> eval I r' e = eval I r e).
      { intros e C. eapply havoc_other; [apply incl_refl|]. intros x X0 X1. exact (C x X0 (W3 x X1)). }
      split; [|split; [exact O2|]].
      * rewrite Forall_forall in O1 |- *. intros e E. unfold tru, LlProofs3.tru. rewrite (TO e (C1 e E)). apply (O1 e E).
      * intros n t1 t2 o J KN VI' NH E. destruct (O3 n t1 t2 o J KN NH VI' E) as (o' & G1 & G2).
        assert (NH' : fst n = true -> ~ In (snd n) (lo_havocs lo)) by (intros F1 F2; apply (NH F1); auto).
        exists o, o'. split; auto. pose proof (vi_enter _ _ _ _ _ _ _ _ _ _ _ _ _ VI') as EN. rewrite HL in EN. destruct EN as (EN1 & _). cbn [snd] in EN1.
        split; [now rewrite EN1|]. rewrite (TO _ (C2 n o J KN NH E)), G2. symmetry. eapply havoc_other; [apply incl_refl|].
        apply (proj2 (header_clean k rl lo t t1 t2 LA INt EH VI') n o' J); auto. right. now apply HK.
Qed.

Lemma succ_avail b X t ts : In b bs -> dead bs b = false -> dead_name bs t = false ->
  ok_instrs an uninterp (sret_name f) (avail an (b_name b)) (b_instrs b) = Some X -> targets (b_instrs b) = Ok ts -> In t ts ->
  incl (avail an t) X.
Proof.
  intros IN DB DT OI TG T n N. pose proof (su_edges an uninterp f bs los grammars pre SUP b IN) as OE. unfold ok_edges in OE. rewrite OI in OE. unfold targets in TG.
  destruct (last_instr (b_instrs b)) as [[| | | | | | |t'|cnd t' e'| | ]|] eqn:L; try discriminate; injection TG as <-.
  - rewrite DB in OE. cbn [orb] in OE. destruct T as [<-|[]]. rewrite forallb_forall in OE. apply nmem_in, OE, N.
  - apply andb_true_iff in OE as [_ OE]. rewrite forallb_forall in OE. assert (T' : exists y, In (t, y) [(t', e'); (e', t')]).
    { destruct T as [<-|[<-|[]]]; [exists t' | exists e']; cbn; auto. }
    destruct T' as [y T']. specialize (OE _ T'). cbn beta iota in OE. rewrite DB, DT in OE. cbn [orb] in OE. rewrite !andb_true_iff, forallb_forall in OE. apply nmem_in. apply OE, N.
  - destruct T.
Qed.

Lemma jump_br c i t c' : lstep U c i = Some (Jump t c') -> (exists x, i = IBr x) \/ exists x y z, i = ICondBr x y z.
Proof. clear. intros E. destruct i as [| | | | | | | | |[o|] |]; eauto; exfalso; cbn in E; repeat (match type of E with context [match ?x with _ => _ end] => destruct x end); discriminate. Qed.

(** a branch on a constant goes where it has to *)
Lemma fixed_jump is t0 : fixed_target is = Some t0 -> forall X X' c t c', ok_instrs an uninterp sn X is = Some X' -> lsteps U c is = Some (Jump t c') -> t = t0.
Proof.
  clear. unfold fixed_target. rewrite <- (rev_involutive is). rewrite rev_involutive. destruct (rev is) as [|i1 [|i2 [|i3 l]]] eqn:E; try discriminate; clear E is.
  { destruct i1 as [| | | | | | | |[? []| | |]| | ]; discriminate. }
  { destruct i1 as [| | | | | | | |[? []| | |]| | ]; try discriminate. destruct i2 as [|? [] [? []| | |]| | | | | | | | | ]; discriminate. }
  destruct i1 as [| | | | | | | |[c0 []| | |] t e| | ]; try discriminate. destruct i2 as [|c1 [] [y []| | |]| | | | | | | | | ]; try discriminate.
  destruct i3 as [| |v [y' []| | |]| | | | | | | | ]; try discriminate. destruct ((c0 =? c1)%string && (y =? y')%string) eqn:EQ; [|discriminate].
  apply andb_true_iff in EQ as [E1 E2]. apply String.eqb_eq in E1, E2. subst c1 y'. intros FT.
  cbn [rev]. rewrite <- !app_assoc. cbn [app]. generalize (rev l). clear l. induction l as [|i l IH]; intros X X' c t1 c' K R.
  - cbn [app lsteps lstep] in R. destruct (cells c y && _); [|discriminate].
    destruct v; try discriminate; cbn [getv] in R; injection FT as <-; cbn [putm sm] in R; unfold put in R at 1; rewrite String.eqb_refl in R;
      cbn [putr putp getv sp] in R; unfold put in R at 1; rewrite String.eqb_refl in R; injection R as <- _; reflexivity.
  - cbn [app] in K, R. destruct (l ++ _) as [|i' l'] eqn:EL; [destruct l; discriminate|]. cbn [ok_instrs] in K.
    destruct (ok_instr an uninterp sn X i) as [X1|] eqn:OK; [|discriminate]. change (ok_instrs an uninterp sn X1 (i' :: l') = Some X') in K. rewrite <- EL in *. cbn [lsteps] in R.
    destruct (lstep U c i) as [[c1|t2 c2| |]|] eqn:ST; try discriminate; [eapply IH; eauto|]. exfalso.
    destruct (jump_br _ _ _ _ ST) as [[x ->]|(x & y' & z & ->)]; discriminate OK.
Qed.

Lemma jumps_next b r t : In b bs -> jumps I (F (b_name b)) b r t -> next r (b_name b) = Some t /\ exists ts, targets (b_instrs b) = Ok ts /\ In t ts.
Proof.
  intros IN J. unfold jumps in J. unfold next, targets. rewrite (find_block_nodup _ _ nd IN).
  destruct (last_instr (b_instrs b)) as [[| | | | | | |t'|[c []| | |] t' e'| | ]|] eqn:L; try destruct J.
  - split; auto. eexists. split; [reflexivity | now left].
  - destruct H as (bv & E & EV & ->). rewrite E, EV. destruct bv; (split; [auto|]; eexists; split; [reflexivity | cbn; auto]).
Qed.

Theorem step_block b r c t c' : In b bs -> at_block b r c -> lsteps U c (b_instrs b) = Some (Jump t c') ->
  exists tb r', In tb bs /\ b_name tb = t /\ at_block tb r' c'.
Proof.
  intros IN [R RA ST DB WI] RUN. destruct (vis b IN) as (s1 & s2 & VI). destruct (ST s1 s2 VI) as [Y2 L2].
  pose proof (vi_run _ _ _ _ _ _ _ _ _ _ _ _ _ VI r c _ L2 RUN) as (X & OI & LX & J).
  assert (YF : yes r (F (b_name b))) by (rewrite (vi_pre _ _ _ _ _ _ _ _ _ _ _ _ _ VI); exact Y2).
  destruct (jumps_next b r t IN J) as (NX & ts & TG & TI).
  destruct (gr_succs _ _ _ GR b ts t IN TG TI) as (tb & INt & ET & CASES). subst t.
  assert (DT : dead bs tb = false).
  { destruct (dead bs tb) eqn:D; auto. exfalso. destruct CASES as [PR|(lo & LO & EH & LT)].
    - unfold dead in D. destruct (b_preds tb) as [|p []]; try discriminate. destruct PR as [->|[]]. rewrite (find_block_nodup _ _ nd IN) in D.
      destruct (fixed_target (b_instrs b)) as [t0|] eqn:FT; [|discriminate]. rewrite (fixed_jump _ _ FT _ _ _ _ _ OI RUN) in D.
      rewrite String.eqb_refl in D. discriminate.
    - pose proof (dead_header tb INt D) as NH. apply (not_header an uninterp f bs los grammars pre SUP ML) in NH. unfold is_header in NH.
      assert (existsb (fun lo => (b_name tb =? lo_header lo)%string) los = true); [|congruence]. apply existsb_exists. exists lo. split; auto.
      rewrite EH. apply String.eqb_refl. }
  assert (DN : dead_name bs (b_name tb) = false) by (unfold dead_name; now rewrite (find_block_nodup _ _ nd INt)).
  pose proof (succ_avail b X (b_name tb) ts IN DB DN OI TG TI) as INC.
  destruct CASES as [PR|(lo & LO & EH & LT)].
  - (* an edge of the reduced graph *)
    assert (SE : forall u1 u2, visited tb u1 u2 -> yes r u1 /\
      forall n o, junk an n = false -> sget (F (b_name b)) n = Some o -> exists o', sget u1 n = Some o' /\ eval I r (o_src o') = eval I r (o_src o)).
    { intros u1 u2 VT. eapply step_edge; eauto. apply (vi_merge _ _ _ _ _ _ _ _ _ _ _ _ _ VT). }
    destruct (header_loops_one an uninterp f bs los grammars pre SUP ML (b_name tb)) as [NH|([k lo] & HL & Q1 & Q2)].
    + exists tb, r. split; auto. split; auto. constructor; auto.
      * intros u1 u2 VT. pose proof (vi_enter _ _ _ _ _ _ _ _ _ _ _ _ _ VT) as EN. rewrite NH in EN. subst u2. destruct (SE _ _ VT) as [YU TR]. split; auto.
        intros n N. destruct (LX n (INC n N)) as (o & w & G1 & G2 & G3). destruct (TR n o (su_avail an uninterp f bs los grammars pre SUP tb n INt N) G1) as (o' & G4 & G5). exists o', w. rewrite G5. auto.
      * intros k rl lo h w1 w2 LA INL INh EH VH. destruct (loop_parts an uninterp f bs los grammars pre SUP k rl lo LA) as (BP & _ & _).
        assert (BL : In (b_name b) (loop_blocks rl)).
        { destruct (BP _ INL) as [E|(bl & FB & IB & _)].
          - exfalso. assert (IL : In lo los) by (unfold loop_at in LA; apply nth_error_In in LA; apply in_combine_r in LA; exact LA).
            apply (not_header an uninterp f bs los grammars pre SUP ML) in NH. unfold is_header in NH.
            assert (existsb (fun lo => (b_name tb =? lo_header lo)%string) los = true); [|congruence]. apply existsb_exists. exists lo. split; auto.
            assert (MT : matches rl lo). { unfold loop_at in LA. clear - ML LA. revert k LA. induction ML as [|x y xs ys M FF IH]; intros k LA; [destruct k; discriminate|]. destruct k as [|k]; cbn in LA; [now injection LA as <- <- | eauto]. }
            destruct MT as [M1 _]. rewrite M1, E. apply String.eqb_refl.
          - rewrite (find_block_nodup _ _ nd INt) in FB. injection FB as <-. auto. }
        destruct (WI k rl lo h w1 w2 LA BL INh EH VH) as (W1 & W2 & W3). split; auto. split; auto.
        intros n t1 t2 o J0 KN VT NHV E. pose proof (vi_enter _ _ _ _ _ _ _ _ _ _ _ _ _ VT) as EN. rewrite NH in EN. subst t2. destruct (SE _ _ VT) as [_ TR].
        destruct (W3 n s1 s2 o J0 KN VI NHV E) as (o1 & o2 & G1 & G2 & G3).
        assert (ND : ~ In n (defs (b_instrs b))) by (apply (loop_defs k rl lo h w1 w2 b n o); auto).
        rewrite <- (vi_keep _ _ _ _ _ _ _ _ _ _ _ _ _ VI n ND) in G2. destruct (TR n o2 J0 G2) as (o3 & G4 & G5).
        exists o1, o3. split; auto. split; auto. now rewrite G5.
    + cbn [snd] in Q2. destruct (loop_at_ex f los ML k lo Q1) as (rl & LA & [MH MT]). exists tb, (havoc_env r (F (b_name b)) (lo_havocs lo)). split; auto. split; auto. eapply (enter_header tb b k rl lo r c' X); eauto.
      * apply (vi_asserts _ _ _ _ _ _ _ _ _ _ _ _ _ VI (k, lo)). apply in_or_app. left. apply filter_In. split; auto. cbn [snd].
        rewrite Q2, (find_block_nodup _ _ nd INt). now apply smem_true.
      * intros u1 u2 VT. destruct (SE _ _ VT) as [YU TR]. split; auto. 
        pose proof (vi_enter _ _ _ _ _ _ _ _ _ _ _ _ _ VT) as EN. rewrite HL in EN. destruct EN as (EN1 & EN2 & _). cbn [snd] in *. split.
        -- intros n N. destruct (LX n (INC n N)) as (o & w & G1 & _). destruct (TR n o (su_avail an uninterp f bs los grammars pre SUP tb n INt N) G1) as (o' & G4 & _).
           destruct n as [[] x]; [|rewrite EN1 by discriminate; congruence]. destruct (in_dec string_dec x (lo_havocs lo)) as [X0|X0].
           ++ destruct (EN2 x X0) as (u & _ & E). congruence.
           ++ rewrite EN1 by auto. congruence.
        -- intros n o o' J0 _ _ G1 G2. destruct (TR n o' J0 G2) as (o2 & G3 & G4). rewrite G1 in G3. injection G3 as <-. exact G4.
      * intros k' rl' lo' h w1 w2 LA' NE INL INh EH VH. destruct (loop_parts an uninterp f bs los grammars pre SUP k' rl' lo' LA') as (BP & _ & _).
        assert (BL : In (b_name b) (loop_blocks rl')).
        { destruct (BP _ INL) as [E|(bl & FB & IB & _)].
          - exfalso. apply (headers_differ an uninterp f bs los grammars pre SUP _ _ _ _ _ _ LA LA' NE). congruence.
          - rewrite (find_block_nodup _ _ nd INt) in FB. injection FB as <-. auto. }
        destruct (WI k' rl' lo' h w1 w2 LA' BL INh EH VH) as (W1 & W2 & W3). split; auto. split; auto.
        intros n t1 t2 o J0 KN NHV VT E. destruct (SE _ _ VT) as [_ TR]. destruct (W3 n s1 s2 o J0 KN VI NHV E) as (o1 & o2 & G1 & G2 & G3).
        assert (ND : ~ In n (defs (b_instrs b))) by (apply (loop_defs k' rl' lo' h w1 w2 b n o); auto).
        rewrite <- (vi_keep _ _ _ _ _ _ _ _ _ _ _ _ _ VI n ND) in G2. destruct (TR n o2 J0 G2) as (o3 & G4 & G5).
        exists o3. split; auto. rewrite G5. congruence.
  - (* a back edge *)
    destruct (lo_numbered los lo LO) as [k K]. destruct (loop_at_ex f los ML k lo K) as (rl & LA & [MH MT]).
    assert (BL : In (b_name b) (loop_blocks rl)). { right. apply in_or_app. right. apply in_or_app. right. now rewrite <- MT. }
    assert (HT : b_name tb = rl_header rl) by congruence.
    assert (HL : header_loops los (b_name tb) = [(k, lo)]).
    { destruct (header_loops_one an uninterp f bs los grammars pre SUP ML (b_name tb)) as [E|([k2 lo2] & E & Q1 & Q2)].
      - exfalso. assert (IN2 : In (k, lo) (header_loops los (b_name tb))) by (apply filter_In; split; auto; cbn; rewrite EH; apply String.eqb_refl).
        rewrite E in IN2. destruct IN2.
      - rewrite E. cbn [snd] in Q2. destruct (header_unique an uninterp f bs los grammars pre SUP ML _ _ _ _ Q1 K) as [-> ->]; [congruence | reflexivity]. }
    exists tb, (havoc_env r (F (b_name b)) (lo_havocs lo)). split; auto. split; auto. eapply (enter_header tb b k rl lo r c' X); eauto.
    + apply (vi_asserts _ _ _ _ _ _ _ _ _ _ _ _ _ VI (k, lo)). apply in_or_app. right. apply filter_In. split; auto. cbn [snd]. now apply smem_true.
    + intros u1 u2 VT. destruct (WI k rl lo tb u1 u2 LA BL INt HT VT) as (W1 & W2 & W3). split; auto. split; auto.
      intros n o o' J0 KN NHV G1 G2. destruct (W3 n s1 s2 o J0 KN VI NHV G1) as (o1 & o2 & G3 & G4 & G5).
      assert (ND : ~ In n (defs (b_instrs b))) by (apply (loop_defs k rl lo tb u1 u2 b n o); auto).
      rewrite <- (vi_keep _ _ _ _ _ _ _ _ _ _ _ _ _ VI n ND) in G4. congruence.
    + intros k' rl' lo' h w1 w2 LA' NE INL INh EHh VH. rewrite HT in INL. destruct (head_inside _ _ _ _ _ _ LA LA' NE INL) as [(_ & WB & WH & _) HK]. cbn [fst snd] in WB, WH.
      destruct (WI k' rl' lo' h w1 w2 LA' (WB _ BL) INh EHh VH) as (W1 & W2 & W3). split; auto. split; auto.
      intros n t1 t2 o J0 KN NHV VT E. destruct (W3 n s1 s2 o J0 KN VI NHV E) as (o1 & o2 & G1 & G2 & G3).
      destruct (WI k rl lo tb t1 t2 LA BL INt HT VT) as (_ & U2 & U3). pose proof (HK n KN NHV) as AV.
      assert (NHV' : fst n = true -> ~ In (snd n) (lo_havocs lo)) by (intros F1 F2; apply (NHV F1); auto).
      pose proof (vi_enter _ _ _ _ _ _ _ _ _ _ _ _ _ VT) as EN. rewrite HL in EN. destruct EN as (EN1 & _). cbn [snd] in EN1.
      rewrite <- HT in AV. pose proof (U2 n AV) as SM. rewrite EN1 in SM by exact NHV'. destruct (sget t1 n) as [o3|] eqn:G4; [|congruence].
      exists o3. split; auto. rewrite HT in AV. destruct (U3 n s1 s2 o3 J0 (or_intror AV) VI NHV' G4) as (o4 & o5 & G5 & G6 & G7). congruence.
Qed.

Lemma done_ret c i c' : lstep U c i = Some (Done c') -> i = IRet None.
Proof. clear. intros E. destruct i as [| | | | | | | | |[o|] |]; auto; exfalso; cbn in E; repeat (match type of E with context [match ?x with _ => _ end] => destruct x end); discriminate. Qed.

Lemma ends_done is : forall X0 X c c', ok_instrs an uninterp sn X0 is = Some X -> lsteps U c is = Some (Done c') -> last_instr is = Some (IRet None).
Proof.
  clear. induction is as [|i is IH]; intros X0 X c c' K E; [discriminate|]. destruct is as [|i2 is].
  - cbn [lsteps] in E. destruct (lstep U c i) as [[]|] eqn:L; try discriminate. rewrite (done_ret _ _ _ L). reflexivity.
  - set (rest := i2 :: is) in *. cbn [ok_instrs] in K. unfold rest in K at 1. destruct (ok_instr an uninterp sn X0 i) as [X1|] eqn:O; [|discriminate].
    change (last_instr (i :: rest)) with (last_instr rest). cbn [lsteps] in E. destruct (lstep U c i) as [[]|] eqn:L; try discriminate; [eapply IH; eauto|].
    rewrite (done_ret _ _ _ L) in O. discriminate.
Qed.

(** ** The cell for the result *)

Lemma result_val x : sn = Some x -> forall k b s1 s2 r, at_pos (b_name b) k -> In b bs -> visited b s1 s2 -> fits G r -> yes r s2 ->
  smem (b_name b) (a_result an) = true -> exists o, sget s2 (true, x) = Some o /\ eval I r (o_src o) = r x.
Proof.
  intros SN. induction k as [k IH] using lt_wf_ind. intros b s1 s2 r AT IN VI R Y AR.
  pose proof (su_result an uninterp f bs los grammars pre SUP b IN) as OR. unfold ok_result in OR. rewrite AR, SN in OR.
  pose proof (vi_enter _ _ _ _ _ _ _ _ _ _ _ _ _ VI) as EN.
  assert (HV : (exists o, sget s2 (true, x) = Some o /\ eval I r (o_src o) = r x) \/
               ((forall lo, In lo los -> b_name b = lo_header lo -> ~ In x (lo_havocs lo)) /\ sget s2 (true, x) = sget s1 (true, x))).
  { destruct (header_loops_one an uninterp f bs los grammars pre SUP ML (b_name b)) as [E|([k0 lo] & E & Q1 & Q2)]; rewrite E in EN.
    - right. subst s2. split; auto. intros lo L H _. destruct (lo_numbered los lo L) as [m M].
      assert (X : In (m, lo) (header_loops los (b_name b))) by (apply filter_In; split; auto; cbn; rewrite H; apply String.eqb_refl). rewrite E in X. destruct X.
    - destruct EN as (EN1 & EN2 & _). cbn [fst snd] in *. destruct (in_dec string_dec x (lo_havocs lo)) as [X|X].
      + left. destruct (EN2 x X) as (t & _ & E2). exists (var_obj t x). split; auto.
      + right. split; [|apply EN1; auto]. intros lo' L H X'. destruct (lo_numbered los lo' L) as [m M].
        destruct (header_unique an uninterp f bs los grammars pre SUP ML _ _ _ _ Q1 M) as [_ ->]; [congruence | contradiction]. }
  destruct HV as [|[NH ES]]; auto. apply orb_true_iff in OR as [OR|OR].
  - exfalso. apply existsb_exists in OR as (lo & L & H). apply andb_true_iff in H as [H1 H2]. apply String.eqb_eq in H1. apply smem_in in H2. exact (NH lo L H1 H2).
  - apply andb_true_iff in OR as [NP OR]. rewrite forallb_forall in OR.
    destruct (reached_from b s1 r IN R (vi_merge _ _ _ _ _ _ _ _ _ _ _ _ _ VI)) as (p & P & YP & NX); [destruct (b_preds b); congruence | eapply s1_yes; eauto|].
    destruct (pos_pred b p k IN P AT) as (m & M1 & M2). destruct (gr_preds _ _ _ GR b p IN P) as (pb & _ & G1 & <- & _).
    specialize (OR _ P). rewrite (find_block_nodup _ _ nd G1) in OR. apply andb_true_iff in OR as [OR1 OR2]. apply negb_true_iff in OR2.
    destruct (vis pb G1) as (t1 & t2 & VP).
    assert (YP2 : yes r t2) by (rewrite <- (vi_pre _ _ _ _ _ _ _ _ _ _ _ _ _ VP); exact YP).
    destruct (IH m M2 pb t1 t2 r M1 G1 VP R YP2 OR1) as (o & O1 & O2).
    rewrite <- (vi_keep _ _ _ _ _ _ _ _ _ _ _ _ _ VP) in O1 by (rewrite <- nmem_in; congruence).
    destruct (step_edge b (b_name pb) s1 r IN R (vi_merge _ _ _ _ _ _ _ _ _ _ _ _ _ VI) P YP NX) as [_ TR].
    destruct (TR (true, x) o) as (o' & O3 & O4); auto.
    { eapply reg_junk. apply (su_srt an uninterp f bs los grammars pre SUP x SN). }
    exists o'. rewrite ES, O4. auto.
Qed.

(** ** Whole runs *)

Definition arg_val (o : obj) : option val := match var_name o with Ok x => a x | Err _ => None end.

Theorem run_ok_ps n : forall b r c w, In b bs -> at_block b r c -> lrun U sn (lf_blocks f) n (b_name b) c = Some w ->
  exists vs, mapO arg_val fargs = Some vs /\ i_call I (fn ++ "_ps")%string (vs ++ [w]) = Some (VBool true).
Proof.
  induction n as [|n IH]; intros b r c w IN AB RUN; [discriminate|]. cbn [lrun] in RUN.
  assert (ND : NoDup (map fst (lf_blocks f))) by (rewrite <- (gr_names _ _ _ GR); exact nd).
  rewrite (dget_nodup _ _ _ ND (gr_instrs _ _ _ GR b IN)) in RUN.
  assert (FIN : forall e a0, fits G r -> (forall x, In x (argn f) -> r x = a x) -> yes r (F (b_name b)) ->
    guarded (F (b_name b)) (Node KCall TBool (Atom (PStr (fn ++ "_ps")%string) :: map o_src fargs ++ [e])) a0 -> In a0 (l_asserts (F (b_name b))) ->
    eval I r e = Some w -> exists vs, mapO arg_val fargs = Some vs /\ i_call I (fn ++ "_ps")%string (vs ++ [w]) = Some (VBool true)).
  { intros e a0 R RA YF GD INa EV.
    pose proof (guarded_true b r _ a0 IN R YF GD INa) as T. unfold tru, LlProofs3.tru in T.
    change (match mapO (eval I r) (map o_src fargs ++ [e]) with Some vs => i_call I (fn ++ "_ps")%string vs | None => None end = Some (VBool true)) in T.
    assert (MA : mapO (eval I r) (map o_src fargs) = mapO arg_val fargs).
    { assert (FA : Forall (fun o => eval I r (o_src o) = arg_val o) fargs).
      { rewrite Forall_forall. intros o O. apply (fargs_in f fargs SORT) in O. pose proof (su_args an uninterp f bs los grammars pre SUP) as SA. rewrite Forall_forall in SA.
        destruct (SA o O) as (x & t & -> & RT & _). unfold arg_val. cbn. apply RA.
        assert (IA : In (regname (var_obj t x)) (arg_regs f)) by (apply (arg_regs_in an uninterp f bs los grammars pre SUP); eauto).
        exact (arg_regs_argn f _ IA). }
      clear - FA. induction FA as [|o os E FA IH]; [reflexivity|]. cbn [map mapO]. rewrite E, IH. reflexivity. }
    assert (APP : forall l l', mapO (eval I r) (l ++ l') = match mapO (eval I r) l, mapO (eval I r) l' with Some x, Some y => Some (x ++ y) | _, _ => None end).
    { clear. induction l as [|x l IH]; intros l'; cbn [app mapO]; [destruct (mapO (eval I r) l'); reflexivity|].
      destruct (eval I r x); [|reflexivity]. rewrite IH. destruct (mapO (eval I r) l), (mapO (eval I r) l'); reflexivity. }
    rewrite APP, MA in T. cbn [mapO] in T. rewrite EV in T. destruct (mapO arg_val fargs) as [vs|]; [|discriminate]. eauto. }
  destruct (lsteps U c (b_instrs b)) as [[c'|t c'|v|c']|] eqn:ST; try discriminate.
  - destruct (step_block b r c t c' IN AB ST) as (tb & r' & INt & <- & AB'). eapply IH; eauto.
  - injection RUN as ->. destruct AB as [R RA S _ WI]. destruct (vis b IN) as (s1 & s2 & VI). destruct (S s1 s2 VI) as [Y2 L2].
    pose proof (vi_run _ _ _ _ _ _ _ _ _ _ _ _ _ VI r c _ L2 ST) as (e & a0 & GD & INa & EV).
    assert (YF : yes r (F (b_name b))) by (rewrite (vi_pre _ _ _ _ _ _ _ _ _ _ _ _ _ VI); exact Y2).
    eapply FIN; eauto.
  - destruct AB as [R RA S _ WI]. destruct (vis b IN) as (s1 & s2 & VI). destruct (S s1 s2 VI) as [Y2 L2].
    pose proof (vi_run _ _ _ _ _ _ _ _ _ _ _ _ _ VI r c _ L2 ST) as (X & x & t & a0 & OI & LX & SN & GD & INa).
    assert (YF : yes r (F (b_name b))) by (rewrite (vi_pre _ _ _ _ _ _ _ _ _ _ _ _ _ VI); exact Y2).
    rewrite SN in RUN. destruct (pos_ex b IN) as [k K].
    assert (OE : nmem (true, x) X = true /\ smem (b_name b) (a_result an) = true /\ nmem (true, x) (defs (b_instrs b)) = false).
    { pose proof (su_edges an uninterp f bs los grammars pre SUP b IN) as OE. unfold ok_edges in OE. rewrite OI, SN in OE.
      rewrite (ends_done _ _ _ _ _ OI ST) in OE. rewrite !andb_true_iff, negb_true_iff in OE. tauto. }
    destruct OE as (O1 & O2 & O3). destruct (result_val x SN k b s1 s2 r K IN VI R Y2 O2) as (o & P1 & P2).
    apply nmem_in in O1. destruct (LX _ O1) as (o' & v & Q1 & Q2 & Q3).
    rewrite (vi_keep _ _ _ _ _ _ _ _ _ _ _ _ _ VI) in Q1 by (rewrite <- nmem_in; congruence). rewrite P1 in Q1. injection Q1 as <-.
    unfold cget in Q2. cbn in Q2. rewrite RUN in Q2. injection Q2 as <-. eapply (FIN (mkVar x t)); eauto. cbn. congruence.
Qed.

Hypothesis ARGS : forall o x, In o (lf_args f) -> var_name o = Ok x -> exists v, a x = Some v /\ of_type (o_ty o) v = true.
Hypothesis PRET : Forall (fun e => eval I a e = Some (VBool true)) pre.

Definition start_env : env := fun x =>
  if smem x (argn f) then a x else match dget G x with Some t => Some (some_val t) | None => None end.

Lemma argn_obj x : In x (argn f) -> exists t, In (var_obj t x) (lf_args f) /\ reg_ty an (is_pointer_type t, x) = Some t.
Proof.
  intros X. assert (A : exists p, In (p, x) (arg_regs f)).
  { unfold argn in X. unfold arg_regs. apply in_app_or in X as [X|X]; [exists true | exists false]; apply in_or_app; [left | right]; apply in_map; exact X. }
  destruct A as [p A]. apply (arg_regs_in an uninterp f bs los grammars pre SUP) in A as (o & O & E). pose proof (su_args an uninterp f bs los grammars pre SUP) as SA. rewrite Forall_forall in SA.
  destruct (SA o O) as (y & t & -> & RT & _). unfold regname in E. cbn in E. injection E as _ ->. eauto.
Qed.

Lemma start_fits : fits G start_env.
Proof.
  intros x t E. unfold start_env. destruct (smem x (argn f)) eqn:SM.
  - apply smem_in in SM. destruct (argn_obj x SM) as (u & O & RT). pose proof (reg_G an (su_disj an uninterp f bs los grammars pre SUP) _ _ RT) as E'. cbn [snd] in E'. rewrite E in E'. injection E' as <-.
    apply (ARGS _ x O eq_refl).
  - rewrite E. eexists. split; [reflexivity|]. apply some_val_ok. 
    assert (ST : simple_ty t = true).
    { unfold LlProofs.G in E. pose proof (su_types an uninterp f bs los grammars pre SUP) as H. unfold ok_types in H. rewrite !andb_true_iff in H. destruct H as ((((((H & _) & _) & _) & _) & _) & _).
      rewrite forallb_forall in H. apply (H (x, t)). now apply dget_in. }
    destruct t as [| |[]| | | | |]; try discriminate; reflexivity.
Qed.

Lemma at_entry is : dget (lf_blocks f) (entry_of f) = Some is -> exists b, In b bs /\ b_name b = entry_of f /\ at_block b start_env (start_store f a).
Proof.
  intros DG. assert (NE : exists b0, In b0 bs).
  { apply dget_key in DG. change (In (entry_of f) (map fst (lf_blocks f))) in DG. rewrite <- (gr_names _ _ _ GR) in DG. apply in_map_iff in DG as (b0 & _ & B). eauto. }
  destruct NE as [b0 B0]. pose proof (ALL b0 B0) as D0. destruct (v_done V) as [|x d] eqn:ED; [destruct D0|].
  pose proof (iv_ord _ _ _ _ _ _ _ _ _ _ _ IV) as O. rewrite ED in O. destruct (O [] x d eq_refl) as (b & IN & EX & _ & PR).
  assert (NP : b_preds b = []) by (destruct (b_preds b) as [|p ps]; auto; destruct (PR p (or_introl eq_refl))).
  exists b. split; auto. split; [now apply no_preds_entry|].
  pose proof (su_bare an uninterp f bs los grammars pre SUP b IN) as BA. unfold ok_bare in BA. rewrite NP, !andb_true_iff in BA.
  destruct BA as [[_ AV] NH]. apply negb_true_iff in NH. apply (not_header an uninterp f bs los grammars pre SUP ML) in NH. rewrite forallb_forall in AV.
  assert (RA : forall x, In x (argn f) -> start_env x = a x). { intros y Y. unfold start_env. apply smem_true in Y. now rewrite Y. }
  constructor; auto; [|  | unfold dead; now rewrite NP |].
  - exact start_fits.
  - intros s1 s2 VI. pose proof (vi_enter _ _ _ _ _ _ _ _ _ _ _ _ _ VI) as EN. rewrite NH in EN. subst s2.
    pose proof (vi_merge _ _ _ _ _ _ _ _ _ _ _ _ _ VI) as M. unfold merge_of in M. rewrite NP in M. destruct M as [M1 M2]. split.
    + rewrite M1. pose proof PRE as P. rewrite Forall_forall in *. intros e E. unfold tru, LlProofs3.tru.
      rewrite (fv_agree (argn f) e start_env a); auto. apply (oc_good _ _ _ _ (P e E)).
    + intros n N. specialize (AV n N). apply nmem_in in AV. pose proof AV as AR. apply (arg_regs_in an uninterp f bs los grammars pre SUP) in AV as (o & O' & EN).
      pose proof (su_args an uninterp f bs los grammars pre SUP) as SA. rewrite Forall_forall in SA. destruct (SA o O') as (y & t & -> & RT & _).
      destruct (ARGS _ y O' eq_refl) as (w & W1 & W2). exists (var_obj t y), w. split; [rewrite <- EN; auto|].
      assert (YA : In y (argn f)) by (rewrite <- EN in AR; exact (arg_regs_argn f _ AR)).
      split; [|cbn; now rewrite (RA y YA)]. unfold regname in EN. cbn in EN. subst n. unfold cget, start_store. cbn [fst snd sm sp].
      unfold arg_regs in AR. apply in_app_or in AR as [AR|AR]; apply in_map_iff in AR as (z & E & Z); injection E as E1 ->; rewrite <- E1; apply smem_true in Z; now rewrite Z.
  - intros k rl lo h w1 w2 LA INL INh EH VH. exfalso. destruct (loop_parts an uninterp f bs los grammars pre SUP k rl lo LA) as (BP & _ & _).
    destruct (BP _ INL) as [E|(bl & FB & _ & NE)].
    + assert (IL : In lo los) by (unfold loop_at in LA; apply nth_error_In in LA; apply in_combine_r in LA; exact LA).
      apply (not_header an uninterp f bs los grammars pre SUP ML) in NH. unfold is_header in NH.
      assert (existsb (fun lo => (b_name b =? lo_header lo)%string) los = true); [|congruence]. apply existsb_exists. exists lo. split; auto.
      assert (MT : matches rl lo). { unfold loop_at in LA. clear - ML LA. revert k LA. induction ML as [|x0 y xs ys M FF IH]; intros k LA; [destruct k; discriminate|]. destruct k as [|k]; cbn in LA; [now injection LA as <- <- | eauto]. }
      destruct MT as [M1 _]. rewrite M1, E. apply String.eqb_refl.
    + rewrite (find_block_nodup _ _ nd IN) in FB. injection FB as <-. contradiction.
Qed.

Theorem returns_ok w : lreturns U f a w -> exists vs, mapO arg_val fargs = Some vs /\ i_call I (fn ++ "_ps")%string (vs ++ [w]) = Some (VBool true).
Proof.
  intros [n RUN]. assert (DG : exists is, dget (lf_blocks f) (entry_of f) = Some is).
  { destruct n; [discriminate|]. cbn in RUN. destruct (dget (lf_blocks f) (entry_of f)) as [is|]; [eauto | discriminate]. }
  destruct DG as [is DG]. destruct (at_entry is DG) as (b & IN & E & AB). rewrite <- E in RUN. eapply run_ok_ps; eauto.
Qed.
End Sim.

(** ** The frontend is sound for supported functions *)

Theorem lfunc_sound I U an uninterp grammars pre f bs los a w vc :
  llibrary I ->
  (forall g vs, smem g (uninterp ++ maths) = true -> i_call I g vs = U g vs /\ exists z, U g vs = Some (VInt z)) ->
  (forall n vs, exists b, i_call I (inv_name (lf_name f) n) vs = Some (VBool b)) ->
  Forall (okcond I an (argn f)) pre ->
  Forall (fun e => eval I a e = Some (VBool true)) pre ->
  graph_of f = Ok (bs, los) ->
  lsupported an uninterp grammars f bs los (nonempty pre) = true ->
  lfunc_vc uninterp grammars pre f = Ok vc ->
  holds I (G an) vc ->
  (forall o x, In o (lf_args f) -> var_name o = Ok x -> exists v, a x = Some v /\ of_type (o_ty o) v = true) ->
  lreturns U f a w ->
  exists fargs vs, sort_objs (lf_args f) = Ok fargs /\
    mapO (fun o => match var_name o with Ok x => a x | Err _ => None end) fargs = Some vs /\
    i_call I (lf_name f ++ "_ps")%string (vs ++ [w]) = Some (VBool true).
Proof.
  intros LIB UNI INVT PRE PRET GO SUP VC HO ARGS RET.
  assert (ND : NoDup (map fst (lf_blocks f))).
  { apply nodupb_ok. pose proof SUP as H. unfold lsupported, supported_with in H. rewrite !andb_true_iff in H. tauto. }
  destruct (graph_ok f bs los GO ND) as [GR ML].
  unfold lfunc_vc, analyze_func in VC. unfold graph_of in GO. ok VC r0 E0. ok E0 bs0 Eb. rewrite Eb in GO. cbn [bindR] in GO. rewrite GO in E0. cbn [bindR fst snd] in E0.
  ok E0 fargs Ea. ok E0 V0 EV. injection E0 as <-. cbn [fst snd] in VC.
  destruct (inv_final I U an uninterp LIB UNI f bs los grammars pre fargs SUP GR ML Ea INVT PRE _ _ EV) as [IV ALL].
  exists fargs.
  assert (HOLD : forall r b e, In b bs -> fits (G an) r -> In e (l_asserts (st V0 (b_name b))) -> tru I r e).
  { intros r b e IN R INe. assert (PL : Forall (fun e => pl true e = true) (all_asserts bs V0)).
    { rewrite Forall_forall. intros x X. unfold all_asserts in X. apply in_flat_map in X as (b' & B1 & B2).
      pose proof (okF I U an uninterp f bs los grammars pre fargs V0 IV ALL b' B1) as OK.
      pose proof (os_ass _ _ _ _ _ OK) as OA. rewrite Forall_forall in OA. apply (OA x B2). }
    pose proof (and_conjb I r _ _ VC PL (HO r R)) as AC. rewrite Forall_forall in AC. apply AC. unfold all_asserts. apply in_flat_map. eauto. }
  destruct (returns_ok I U an uninterp f bs los grammars pre fargs SUP GR ML Ea PRE V0 IV ALL a HOLD ARGS PRET w RET) as (vs & M & P).
  exists vs. auto.
Qed.
