(** Proofs about metalift/vc.py, part 2: where several blocks meet. *)

From Coq Require Import String List ZArith Bool Lia.
From Verif Require Import Ast Semantics Dict IrProofs UtilProofs PySem PyProofs PyProofs2 PyProofs3 LlModel LlProofs3 VcModel VcSem VcProofs1.
Import ListNotations.
Local Open Scope list_scope.

Section Merge.
Variables (I : interp) (G : sigs).
Hypothesis RESP : respects I G.
Notation typed := (typed G).
Notation typeds := (typeds G).

Definition tru (r : env) (e : expr) : Prop := eval I r e = Some (VBool true).

Lemma typeds_all U es : Forall (fun e => typed U e TBool) es -> exists ts, typeds U es ts /\ Forall (eq TBool) ts.
Proof. induction 1 as [|e es T _ (ts & A & B)]; [exists []; split; constructor | exists (TBool :: ts); split; constructor; auto]. Qed.

Lemma typed_andor U k es : k = KAnd \/ k = KOr -> es <> [] -> Forall (fun e => typed U e TBool) es -> typed U (Node k TBool es) TBool.
Proof. intros K NE F. destruct (typeds_all U es F) as (ts & A & B). eapply t_andor; eauto. Qed.

Lemma bools_eval U r es : fit U r -> Forall (fun e => typed U e TBool) es ->
  exists bs, mapO (eval I r) es = Some (map VBool bs) /\ (forallb (fun b => b) bs = true <-> Forall (tru r) es) /\
    (existsb (fun b => b) bs = true <-> Exists (tru r) es).
Proof.
  intros FIT. induction 1 as [|e es T _ (bs & A & B & C)]; [exists []; cbn; split; auto; split; [split; auto|split; [discriminate|intros E; inversion E]]|].
  destruct (typed_bool I G RESP U r e FIT T) as (b & E). exists (b :: bs). cbn [mapO map forallb existsb]. rewrite E, A. split; auto.
  assert (TE : tru r e <-> b = true) by (unfold tru; rewrite E; split; congruence).
  rewrite andb_true_iff, orb_true_iff, B, C, Forall_cons_iff, Exists_cons, TE. tauto.
Qed.

Lemma and_tru U r es : fit U r -> es <> [] -> Forall (fun e => typed U e TBool) es -> (tru r (Node KAnd TBool es) <-> Forall (tru r) es).
Proof.
  intros FIT NE F. destruct (bools_eval U r es FIT F) as (bs & A & B & _). unfold tru at 1. cbn. rewrite A. unfold op_val. rewrite as_bools, <- B.
  destruct bs as [|b bs]; [destruct es as [|e es]; [congruence|]; cbn in A; destruct (eval I r e); [destruct (mapO (eval I r) es)|]; discriminate|].
  cbn [forallb]. split; congruence.
Qed.
Lemma or_tru U r es : fit U r -> es <> [] -> Forall (fun e => typed U e TBool) es -> (tru r (Node KOr TBool es) <-> Exists (tru r) es).
Proof.
  intros FIT NE F. destruct (bools_eval U r es FIT F) as (bs & A & _ & B). unfold tru at 1. cbn. rewrite A. unfold op_val. rewrite as_bools, <- B.
  destruct bs as [|b bs]; [destruct es as [|e es]; [congruence|]; cbn in A; destruct (eval I r e); [destruct (mapO (eval I r) es)|]; discriminate|].
  cbn [existsb]. split; congruence.
Qed.

Lemma mkBoolN_is k es e : mkBoolN k es = Ok e -> es <> [] /\ e = Node k TBool es.
Proof. destruct es; cbn [mkBoolN]; [discriminate|]. intros H. ok H u E. injection H as <-. split; [discriminate | reflexivity]. Qed.
Lemma nary_is k es e : nary k es = Ok e -> (es = [e]) \/ (es <> [] /\ e = Node k TBool es).
Proof.
  destruct es as [|a [|b es]]; cbn [nary]; [discriminate | intros [= ->]; auto|]. intros H. right. apply mkBoolN_is in H. tauto.
Qed.

Lemma nary_and U es e : nary KAnd es = Ok e -> Forall (fun e => typed U e TBool) es ->
  typed U e TBool /\ forall r, fit U r -> (tru r e <-> Forall (tru r) es).
Proof.
  intros N F. destruct (nary_is _ _ _ N) as [-> |[NE ->]].
  - inversion F; subst. split; auto. intros r _. rewrite Forall_cons_iff. intuition.
  - split; [apply typed_andor; auto|]. intros r FIT. now apply (and_tru U).
Qed.
Lemma nary_or U es e : nary KOr es = Ok e -> Forall (fun e => typed U e TBool) es ->
  typed U e TBool /\ forall r, fit U r -> (tru r e <-> Exists (tru r) es).
Proof.
  intros N F. destruct (nary_is _ _ _ N) as [-> |[NE ->]].
  - inversion F; subst. split; auto. intros r _. rewrite Exists_cons, Exists_nil. intuition.
  - split; [apply typed_andor; auto|]. intros r FIT. now apply (or_tru U).
Qed.

Lemma nary_ands U ps es : mapR (nary KAnd) ps = Ok es -> Forall (Forall (fun e => typed U e TBool)) ps ->
  Forall (fun e => typed U e TBool) es /\ forall r, fit U r -> (Exists (tru r) es <-> Exists (Forall (tru r)) ps).
Proof.
  revert es. induction ps as [|p ps IH]; intros es M F; cbn [mapR] in M.
  - injection M as <-. split; auto. intros r _. rewrite !Exists_nil. tauto.
  - ok M e E. ok M es' E'. injection M as <-. inversion F as [|? ? Fp Fps]; subst. destruct (IH _ E' Fps) as [A B].
    destruct (nary_and U p e E Fp) as [C D]. split; auto. intros r FIT. rewrite !Exists_cons, (B r FIT), (D r FIT). tauto.
Qed.

Lemma value_path_ok U ps c : value_path ps = Ok c -> Forall (Forall (fun e => typed U e TBool)) ps ->
  typed U c TBool /\ forall r, fit U r -> (tru r c <-> Exists (Forall (tru r)) ps).
Proof.
  unfold value_path. intros H F. ok H es E. destruct (nary_ands U ps es E F) as [A B]. destruct (nary_or U es c H A) as [C D].
  split; auto. intros r FIT. now rewrite (D r FIT), (B r FIT).
Qed.

Lemma mkIte_is c a b e : mkIte [c; a; b] = Ok e -> exists t, type_of a = Ok t /\ e = Node KIte t [c; a; b].
Proof.
  cbn [mkIte]. intros H. ok H tc E. destruct (negb (ty_eqb tc TBool)); [discriminate|]. ok H ta Ea. ok H tb Eb.
  destruct (ty_eqb ta tb); [|discriminate]. injection H as <-. eauto.
Qed.
Lemma typed_type_of U e t : typed U e t -> type_of e = Ok t.
Proof. intros T. destruct (typed_type G U e t T) as (k & args & ->). reflexivity. Qed.

Lemma ite_chain_ok U t : forall vs acc e, ite_chain acc vs = Ok e -> typed U acc t ->
  Forall (fun p => typed U (fst p) t /\ typed U (snd p) TBool) vs ->
  typed U e t /\ forall r v, fit U r -> (forall a c, In (a, c) vs -> tru r c -> eval I r a = v) ->
    (eval I r acc = v \/ exists a c, In (a, c) vs /\ tru r c) -> eval I r e = v.
Proof.
  induction vs as [|[a c] vs IH]; intros acc e H TA F; cbn [ite_chain] in H.
  - injection H as <-. split; auto. intros r v _ _ [H|(a & c & [] & _)]. exact H.
  - ok H acc' E. inversion F as [|? ? [Fa Fc] Fvs]; subst; cbn [fst snd] in *.
    apply mkIte_is in E as (t' & Tt & ->). rewrite (typed_type_of U a t Fa) in Tt. injection Tt as <-.
    assert (TI : typed U (Node KIte t [c; a; acc]) t) by (constructor; auto).
    destruct (IH _ _ H TI Fvs) as [A B]. split; auto. intros r v FIT ALL EX.
    apply (B r v FIT); [intros a' c' IN; apply ALL; now right|].
    destruct (typed_bool I G RESP U r c FIT Fc) as (b & Eb). cbn. rewrite Eb. destruct b.
    + left. apply (ALL a c); [now left | exact Eb].
    + destruct EX as [EX|(a' & c' & [[= <- <-]|IN] & T)]; [now left| |right; eauto].
      unfold tru in T. congruence.
Qed.

Definition okgroup (U : list (string * ty)) (t : ty) (p : expr * list (list expr)) : Prop :=
  typed U (fst p) t /\ Forall (Forall (fun e => typed U e TBool)) (snd p).

Lemma merge_value_ok U t vs e : merge_value vs = Ok e -> Forall (okgroup U t) vs ->
  typed U e t /\ forall r v, fit U r -> (forall a ps, In (a, ps) vs -> Exists (Forall (tru r)) ps -> eval I r a = v) ->
    (exists a ps, In (a, ps) vs /\ Exists (Forall (tru r)) ps) -> eval I r e = v.
Proof.
  intros H F. destruct vs as [|[e0 p0] [|q vs]]; [discriminate| |].
  - cbn in H. injection H as <-. inversion F as [|? ? [A B] _]; subst. split; auto.
    intros r v _ ALL (a & ps & IN & EX). pose proof (ALL a ps IN EX) as V. destruct IN as [[= <- <-]|[]]. exact V.
  - cbn [merge_value] in H. set (l := (e0, p0) :: q :: vs) in *. ok H cs E.
    assert (X : Forall2 (fun g c => fst g = fst c /\ typed U (snd c) TBool /\ forall r, fit U r -> (tru r (snd c) <-> Exists (Forall (tru r)) (snd g))) l cs).
    { clear H. revert cs E. clearbody l. induction l as [|[a ps] l IH]; intros cs E; cbn [mapR] in E; [injection E as <-; constructor|].
      ok E c Ec. ok E cs' E'. injection E as <-. ok Ec c' Ec'. injection Ec as <-. inversion F as [|? ? [A B] F']; subst. cbn [fst snd] in *.
      destruct (value_path_ok U ps c' Ec' B) as [C D]. constructor; auto. }
    destruct cs as [|[a0 c0] cs]; [discriminate|]. unfold l in X. inversion X as [|? ? ? ? X0 X']; subst. cbn [fst snd] in X0. destruct X0 as (<- & C0 & D0).
    inversion F as [|? ? [A0 _] F']; subst; cbn [fst] in A0.
    assert (FC : Forall (fun p => typed U (fst p) t /\ typed U (snd p) TBool) cs).
    { clear - X' F'. induction X' as [|g c gs cs (E & C & _) X IH]; auto. inversion F' as [|? ? [A _] F'']; subst. constructor; auto. rewrite <- E. auto. }
    destruct (ite_chain_ok U t cs e0 e H A0 FC) as [T V]. split; auto. intros r v FIT ALL (a & ps & IN & EX).
    assert (BACK : forall a c, In (a, c) cs -> tru r c -> exists ps, In (a, ps) (q :: vs) /\ Exists (Forall (tru r)) ps).
    { intros a1 c1 IN1 T1. clear - X' IN1 T1 FIT. induction X' as [|[g1 g2] c gs cs (E & C & D) X IH]; [destruct IN1|]. destruct IN1 as [-> |IN1].
      - cbn [fst snd] in *. subst. exists g2. split; [now left|]. now apply (D r FIT).
      - destruct (IH IN1) as (ps & A & B). exists ps. split; auto. now right. }
    apply (V r v FIT).
    + intros a1 c1 IN1 T1. destruct (BACK a1 c1 IN1 T1) as (ps1 & IN2 & EX2). apply (ALL a1 ps1); auto. now right.
    + destruct IN as [[= <- <-]|IN]; [left; apply (ALL e0 p0); auto; now left|]. right.
      clear - X' IN EX FIT. induction X' as [|[g1 g2] [c1 c2] gs cs (E & C & D) X IH]; [destruct IN|]. destruct IN as [[= -> ->]|IN]; cbn [fst snd] in *.
      * subst. exists c1, c2. split; [now left|]. now apply (D r FIT).
      * destruct (IH IN) as (a1 & c' & A & B). exists a1, c'. split; auto. now right.
Qed.

Lemma merge_keys d d' : mapR (fun p : string * values => e <- merge_value (snd p) ;; Ok (fst p, e)) d = Ok d' ->
  dkeys d' = dkeys d /\ forall x, match dget d x with
    | Some vs => exists e, merge_value vs = Ok e /\ dget d' x = Some e | None => dget d' x = None end.
Proof.
  revert d'. induction d as [|[y vs] d IH]; intros d' M; cbn [mapR] in M.
  - injection M as <-. split; auto. intros x. reflexivity.
  - ok M p Ep. ok M d1 E1. injection M as <-. ok Ep o Eo. injection Ep as <-. destruct (IH _ E1) as [A B]. cbn [fst snd] in *.
    split; [cbn; unfold dkeys in *; congruence|]. intros x. cbn. destruct (String.eqb x y); [eauto | apply B].
Qed.

Definition citems (cs : list (list expr * dict expr)) : list item :=
  flat_map (fun c => map (fun p => (fst c, fst p, snd p)) (snd c)) cs.
Lemma group_items cs : group cs = fold_left gather1 (citems cs) [].
Proof.
  unfold group, citems. generalize (@nil (string * values)). induction cs as [|c cs IH]; intros acc; cbn [fold_left flat_map]; auto.
  rewrite fold_left_app, IH. f_equal. generalize acc as a. destruct c as [pc d]. cbn [fst snd]. induction d as [|[x o] d IHd]; intros a; cbn; auto.
Qed.

(** expressions in a dictionary have the declared types *)
Definition okdict (U : list (string * ty)) (T : dict ty) (d : dict expr) : Prop :=
  NoDup (dkeys d) /\ forall x e, dget d x = Some e -> exists t, dget T x = Some t /\ typed U e t.

Lemma merge_container_ok U T cs d : merge_container cs = Ok d -> NoDup (map fst U) ->
  Forall (fun c => Forall (fun e => typed U e TBool) (fst c) /\ okdict U T (snd c)) cs ->
  okdict U T d /\
  forall r c x e, fit U r -> In c cs -> Forall (tru r) (fst c) -> dget (snd c) x = Some e ->
    (forall c' e', In c' cs -> Forall (tru r) (fst c') -> dget (snd c') x = Some e' -> eval I r e' = eval I r e) ->
    exists e', dget d x = Some e' /\ eval I r e' = eval I r e.
Proof.
  intros M ND F. unfold merge_container in M. rewrite group_items in M. destruct (merge_keys _ _ M) as [K B].
  destruct (gather_facts (citems cs)) as (N & FR & CO). set (gd := fold_left gather1 (citems cs) []) in *.
  rewrite Forall_forall in F.
  assert (IT : forall pc x e, In (pc, x, e) (citems cs) -> exists c, In c cs /\ dget (snd c) x = Some e /\ pc = fst c).
  { intros pc x e IN. apply in_flat_map in IN as (c & INc & IN). apply in_map_iff in IN as ([y o] & [= <- <- <-] & IN). cbn [fst snd].
    exists c. split; auto. split; auto. destruct (F c INc) as [_ [ND' _]]. now apply nodup_dget. }
  assert (GRP : forall x vs, dget gd x = Some vs -> exists t, dget T x = Some t /\ Forall (okgroup U t) vs).
  { intros x vs E. destruct (FR x vs E) as [NV FF]. destruct vs as [|[e0 pcs0] vs0] eqn:EV; [congruence|]. rewrite <- EV in *. clear NV.
    destruct (FF e0 pcs0) as (_ & (pc0 & I0) & _); [rewrite EV; now left|]. destruct (IT _ _ _ I0) as (c0 & J1 & J2 & _).
    destruct (proj2 (proj2 (F c0 J1)) _ _ J2) as (t & TT & _). exists t. split; auto. rewrite Forall_forall. intros [e pcs] IN.
    destruct (FF e pcs IN) as (P1 & (pc & P2) & P3). destruct (IT _ _ _ P2) as (c & Q1 & Q2 & _).
    destruct (proj2 (proj2 (F c Q1)) _ _ Q2) as (t' & TT' & OV). rewrite TT in TT'. injection TT' as <-.
    split; [exact OV|]. cbn [snd]. rewrite Forall_forall. intros q Q. destruct (P3 q Q) as (e' & R1 & _). destruct (IT _ _ _ R1) as (c' & R2 & _ & ->).
    apply (F c' R2). }
  split; [split; [rewrite K; exact N|]|].
  - intros x e E. specialize (B x). destruct (dget gd x) as [vs|] eqn:GV; [|congruence]. destruct B as (o' & MV & E'). rewrite E in E'. injection E' as <-.
    destruct (GRP x vs GV) as (t & TT & FF). exists t. split; auto. apply (merge_value_ok U t vs e MV FF).
  - intros r c x e R IN TR SG UN.
    assert (INI : In (fst c, x, e) (citems cs)).
    { apply in_flat_map. exists c. split; auto. apply in_map_iff. exists (x, e). split; auto. now apply dget_in. }
    destruct (CO _ _ _ INI) as (vs & e' & pcs & GV & INV & INP & EQ).
    specialize (B x). rewrite GV in B. destruct B as (o' & MV & E'). exists o'. split; auto.
    destruct (GRP x vs GV) as (t & TY & FF). destruct (merge_value_ok U t vs o' MV FF) as [OV EV].
    destruct (FR x vs GV) as [NV F'].
    apply (EV r _ R).
    + intros e1 pcs1 IN1 EX1. apply Exists_exists in EX1 as (pc1 & INpc & TR1). destruct (F' e1 pcs1 IN1) as (_ & (pc & P) & P3).
      destruct (P3 pc1 INpc) as (e2 & P4 & P5). destruct (IT _ _ _ P4) as (s2 & Q1 & Q2 & ->).
      destruct (IT _ _ _ P) as (s3 & U1 & U2 & _).
      destruct (proj2 (proj2 (F s2 Q1)) _ _ Q2) as (t2 & T2 & V2). destruct (proj2 (proj2 (F s3 U1)) _ _ U2) as (t3 & T3 & V3).
      assert (t2 = t3) by congruence. subst t3. rewrite <- (UN s2 e2 Q1 TR1 Q2). apply (equal_value I G RESP U r e1 e2 t2); auto.
    + exists e', pcs. split; auto. apply Exists_exists. eauto.
Qed.

(** ** States *)

Record okstate (U : list (string * ty)) (s : vstate) : Prop := {
  ok_regs : okdict U (g_regs G) (w_regs s);
  ok_mem : okdict U (g_cells G) (w_mem s);
  ok_ass : Forall (fun e => typed U e TBool) (w_assumes s);
  ok_ne : w_assumes s <> [] }.

Lemma okdict_incl U U' T d : incl U U' -> okdict U T d -> okdict U' T d.
Proof. intros INC [N H]. split; auto. intros x e E. destruct (H x e E) as (t & A & B). exists t. split; auto. eapply typed_incl; eauto. Qed.
Lemma okstate_incl U U' s : incl U U' -> okstate U s -> okstate U' s.
Proof.
  intros INC [A B C D]. constructor; eauto using okdict_incl. revert C. apply Forall_impl. intros e. now apply typed_incl.
Qed.

(** the path condition of a state *)
Definition path (r : env) (s : vstate) : Prop := Forall (tru r) (w_assumes s).

(** the values of the known registers and cells in a state are those in a store *)
Record link (r : env) (k : known) (s : vstate) (c : store) : Prop := {
  ln_reg : forall x, In x (fst k) -> exists e v, dget (w_regs s) x = Some e /\ eval I r e = Some v /\ cr c x = Some v;
  ln_mem : forall x, In x (snd k) -> exists e v, dget (w_mem s) x = Some e /\ eval I r e = Some v /\ cm c x = Some v }.

Lemma link_incl r k k' s c : link r k s c -> incl (fst k') (fst k) -> incl (snd k') (snd k) -> link r k' s c.
Proof. intros [A B] I1 I2. constructor; auto. Qed.

Lemma merge_vstates_ok U ss s1 : merge_vstates ss = Ok s1 -> NoDup (map fst U) -> Forall (okstate U) ss ->
  okstate U s1 /\
  (forall r, fit U r -> (path r s1 <-> exists s, In s ss /\ path r s)) /\
  (forall r s k c, fit U r -> In s ss -> path r s -> (forall s', In s' ss -> path r s' -> s' = s) -> link r k s c -> link r k s1 c) /\
  (forall s, ss = [s] -> w_regs s1 = w_regs s /\ w_mem s1 = w_mem s /\ w_assumes s1 = w_assumes s).
Proof.
  intros M ND F. destruct ss as [|s [|s' ss]]; [discriminate| |].
  - cbn in M. injection M as <-. inversion F as [|? ? [A B C D] _]; subst. split; [constructor; auto|]. split; [|split].
    + intros r _. unfold path. cbn. split; [eauto|]. intros (s' & [<-|[]] & H). exact H.
    + intros r s' k c _ [<-|[]] _ _ [L1 L2]. constructor; auto.
    + intros s' [= <-]. auto.
  - cbn [merge_vstates] in M. set (l := s :: s' :: ss) in *. ok M regs Er. ok M mem Em. ok M es Ee. ok M e Eo.
    destruct (forallb _ l); [|discriminate]. injection M as <-.
    destruct (merge_container_ok U (g_regs G) _ _ Er ND) as [R1 R2].
    { rewrite Forall_forall in *. intros c IN. apply in_map_iff in IN as (s0 & <- & IN). destruct (F s0 IN). auto. }
    destruct (merge_container_ok U (g_cells G) _ _ Em ND) as [M1 M2].
    { rewrite Forall_forall in *. intros c IN. apply in_map_iff in IN as (s0 & <- & IN). destruct (F s0 IN). auto. }
    destruct (nary_ands U _ _ Ee) as [A1 A2].
    { rewrite Forall_forall in *. intros c IN. apply in_map_iff in IN as (s0 & <- & IN). destruct (F s0 IN). auto. }
    destruct (nary_or U es e Eo A1) as [O1 O2].
    split; [constructor; cbn; auto; discriminate|]. split; [|split].
    + intros r FIT. unfold path at 1. cbn. rewrite Forall_cons_iff, (O2 r FIT), (A2 r FIT), Exists_exists. split.
      * intros [(p & IN & P) _]. apply in_map_iff in IN as (s0 & EQ & IN). subst p. exists s0. split; auto.
      * intros (s0 & IN & P). split; auto. exists (w_assumes s0). split; auto. now apply in_map.
    + intros r s0 k c FIT IN P UN [L1 L2]. constructor; cbn.
      * intros x X. destruct (L1 x X) as (e1 & v & D & E & C).
        destruct (R2 r (w_assumes s0, w_regs s0) x e1 FIT) as (e' & D' & E'); cbn [fst snd]; auto.
        { apply in_map_iff. eauto. }
        { intros c' e' IN' P' D'. apply in_map_iff in IN' as (s2 & <- & IN'). cbn [fst snd] in *. rewrite (UN s2 IN' P') in D'. congruence. }
        exists e', v. rewrite E'. auto.
      * intros x X. destruct (L2 x X) as (e1 & v & D & E & C).
        destruct (M2 r (w_assumes s0, w_mem s0) x e1 FIT) as (e' & D' & E'); cbn [fst snd]; auto.
        { apply in_map_iff. eauto. }
        { intros c' e' IN' P' D'. apply in_map_iff in IN' as (s2 & <- & IN'). cbn [fst snd] in *. rewrite (UN s2 IN' P') in D'. congruence. }
        exists e', v. rewrite E'. auto.
    + intros s0 [=].
Qed.
End Merge.
