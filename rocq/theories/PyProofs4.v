(** Proofs about the Python frontend, part 4: the verification conditions imply
    that the postcondition holds of what the function returns. *)

From Coq Require Import String List ZArith Bool Lia.
From Verif Require Import Ast Semantics Dict IrProofs IrProofs3 IrProofs6 UtilModel UtilProofs ObjModel PyModel PySem PyProofs PyProofs2 PyProofs3.
Import ListNotations.
Local Open Scope Z_scope.
Local Open Scope string_scope.
Local Open Scope list_scope.

Lemma mapO_app A B (f : A -> option B) l1 l2 v1 v2 : mapO f l1 = Some v1 -> mapO f l2 = Some v2 -> mapO f (l1 ++ l2) = Some (v1 ++ v2).
Proof.
  revert v1. induction l1 as [|a l1 IH]; intros v1 M1 M2; cbn [mapO app] in *.
  - injection M1 as <-. auto.
  - destruct (f a); [|discriminate]. destruct (mapO f l1); [|discriminate]. injection M1 as <-.
    rewrite (IH _ eq_refl M2). reflexivity.
Qed.

Lemma insert_name_in x l y : In y (insert_name x l) <-> y = x \/ In y l.
Proof.
  induction l as [|z l IH]; cbn [insert_name]; [simpl; intuition|].
  destruct (String.compare x z) eqn:C.
  - apply String.compare_eq_iff in C. subst. simpl. intuition.
  - simpl. intuition.
  - simpl. rewrite IH. intuition.
Qed.
Lemma sorted_set_in l y : In y (sorted_set l) <-> In y l.
Proof.
  induction l as [|x l IH]; cbn [sorted_set fold_right]; [tauto|].
  fold (sorted_set l). rewrite insert_name_in, IH. simpl. intuition.
Qed.

Lemma smem_true x l : smem x l = true <-> In x l.
Proof.
  split; [apply smem_in|]. intros IN. unfold smem. apply existsb_exists. exists x. split; auto. apply String.eqb_refl.
Qed.

Lemma invariant_post fn fargs g id wr rd sc g' p : invariant fn fargs g id wr rd sc = Ok (g', p) -> g_post g' = g_post g.
Proof.
  unfold invariant. destruct (find_inv (g_invs g) id); [congruence|]. intros H. ok H r E. injection H as <- <-. reflexivity.
Qed.

Section Dyn.
Variables (I : interp) (U : string -> list val -> option val) (G : dict ty) (uninterp : list string).
Hypothesis LIB : library I.
Hypothesis UNI : forall f vs, smem f uninterp = true -> i_call I f vs = U f vs /\ exists z, U f vs = Some (VInt z).
Hypothesis SIMPLE : forallb (fun p => simple_type (snd p)) G = true.
Variables (fn : string) (fargs : list obj) (types : dict mtype) (params : list string).
Hypothesis RECORDED : recorded G types = true.
Hypothesis FARGS : forall S, incl params S -> Forall (good S) (map o_src fargs).
(** the arguments of the call *)
Variable vs0 : list val.

Notation VE := (vexpr uninterp).
Notation VS := (vstmt fn fargs uninterp types).
Notation VB := (runS (vstmt fn fargs uninterp types)).
Notation Static := (Static I G).
Notation true_at r := (Forall (fun e => eval I r e = Some (VBool true))).
Notation RUN := (run U true).

Definition SLink (r : env) (st : store) (d : dict obj) : Prop :=
  forall x w, st x = Some w -> exists o, dget d x = Some o /\ eval I r (o_src o) = Some w.

Lemma slink_link r st d : SLink r st d -> Link I r st d.
Proof. intros L x o w D H. destruct (L x w H) as (o' & D' & E). congruence. Qed.

Definition psok (v : val) : Prop := i_call I (fn ++ "_ps") (vs0 ++ [v]) = Some (VBool true).
Definition pspred (g : glob) : Prop := exists p, dget (g_post g) fn = Some p /\ p_name p = (fn ++ "_ps")%string.
Definition fargsok (r : env) : Prop := mapO (eval I r) (map o_src fargs) = Some vs0.

Definition outcome_ok (r : env) (s' : state) (out : outcome) : Prop :=
  match out with
  | Goes st' => SLink r st' (vars s') /\ has_returned s' = false
  | Returns v => true_at r (asserts s') -> psok v
  end.

Definition dyn (n : nat) : Prop := forall b S r in_if g s g' s' st out,
  RUN n b st = Some out -> VB b (g, s) = Ok (g', s') ->
  counts b = 0%nat \/ ((counts b <= 1)%nat /\ asserts s = []) ->
  forallb (ok_stmt G uninterp params in_if) b = true -> incl params S ->
  Static S r (vars s) -> Forall (good S) (precond s) -> true_at r (precond s) -> fargsok r ->
  SLink r st (vars s) -> has_returned s = false -> pspred g ->
  outcome_ok r s' out.

Definition not_lost (st0 : stmt) (s : state) : Prop :=
  match st0 with
  | SIf _ _ _ => count st0 = 0%nat \/ ((count st0 <= 1)%nat /\ asserts s = [])
  | SWhile _ _ _ => False
  | _ => True
  end.

Lemma slink_write r st d x o v : SLink r st d -> eval I r (o_src o) = Some v -> SLink r (put st x v) (dset d x o).
Proof.
  intros L E y w H. unfold put in H. rewrite dget_dset. rewrite String.eqb_sym in H. destruct (String.eqb y x).
  - injection H as <-. eauto.
  - auto.
Qed.

Lemma step n st0 b S r in_if g s g1 s1 st out : dyn n ->
  RUN (Datatypes.S n) (st0 :: b) st = Some out -> VS st0 (g, s) = Ok (g1, s1) -> not_lost st0 s ->
  ok_stmt G uninterp params in_if st0 = true -> incl params S ->
  Static S r (vars s) -> Forall (good S) (precond s) -> true_at r (precond s) -> fargsok r ->
  SLink r st (vars s) -> has_returned s = false -> pspred g ->
  (exists st1, RUN n b st1 = Some out /\ SLink r st1 (vars s1) /\ has_returned s1 = false) \/
  (exists v, out = Returns v /\ (true_at r (asserts s1) -> psok v)).
Proof.
  intros DYN R V NL OK SUB ST PC TP FA LK HR PS.
  pose proof (slink_link _ _ _ LK) as LW.
  destruct st0 as [xs e|e|id c bb|e|c bb els|]; cbn [ok_stmt] in OK; cbn [vstmt fst snd] in V; cbn [run] in R.
  - (* assignment *)
    destruct xs as [|x []]; try discriminate. left. ok V p Ep. injection V as <- <-. destruct p as [o s2]. cbn [fst snd] in *.
    destruct (ety G uninterp e) as [t|] eqn:Et; [|discriminate]. destruct (dget G x) as [t'|] eqn:D; [|discriminate].
    destruct (vexpr_sound I U G uninterp LIB UNI S r e s ST t o s2 Ep Et) as (-> & To & Go & v & Ev & Tv & L).
    destruct (pyeval U true st e) as [w|] eqn:P; [|discriminate]. destruct (copies_list e w); [discriminate|].
    specialize (L st w LW P). subst w. exists (put st x v). split; auto. split; auto. cbn [write vars]. now apply slink_write.
  - (* expression statement *)
    left. destruct (ety G uninterp e) as [t|] eqn:Et.
    + ok V p Ep. injection V as <- <-. destruct p as [o s2]. cbn [fst snd] in *.
      destruct (vexpr_sound I U G uninterp LIB UNI S r e s ST t o s2 Ep Et) as (-> & _).
      exists st. split; auto. destruct e as [| | | | | | | | |ce m es]; try discriminate;
        match type of R with match ?x with _ => _ end = _ => destruct x; [exact R | discriminate] end.
    + destruct e as [| | | | | | | | |ce m es]; try discriminate. destruct ce as [|x| | | | | | | |]; try discriminate.
      destruct es as [|e []]; try discriminate.
      apply andb_true_iff in OK as [OK TY]. apply andb_true_iff in OK as [OK NP]. apply andb_true_iff in OK as [OK NI].
      rewrite OK in R. apply String.eqb_eq in OK. subst m. destruct (dget G x) as [[| |[]| | | | |]|] eqn:D; try discriminate.
      destruct (ety G uninterp e) as [[]|] eqn:Ee; try discriminate.
      cbn [vexpr String.eqb Ascii.eqb Bool.eqb] in V. ok V p Ep. injection V as <- <-. destruct p as [o s2]. cbn [fst snd] in *.
      ok Ep q Eqq. ok Eqq o1 Er. injection Eqq as <-. cbn [fst snd] in *. unfold read in Er.
      destruct (dget (vars s) x) as [o2|] eqn:DX; [|discriminate]. injection Er as <-.
      destruct (negb (is_list_type (o_ty o2))); [discriminate|].
      ok Ep q Eqq. cbn [mapS] in Eqq. ok Eqq q1 Eqq1. ok Eqq q2 Eqq2. injection Eqq2 as <-. injection Eqq as <-.
      destruct q1 as [a s3]. cbn [fst snd one] in *. cbn [bindR] in Ep.
      destruct (vexpr_sound I U G uninterp LIB UNI S r e s ST TInt a s3 Eqq1 Ee) as (-> & Ta & Ga & va & Eva & Tva & La).
      ok Ep y Ey. ok Ep l El. injection Ep as <- <-.
      destruct (proj2 ST x o2 DX) as (T2 & G2 & NM & v & Ev & Tv). assert (o_ty o2 = TList TInt) as T by congruence.
      assert (y = x) by (eapply NM; eauto). subst y.
      unfold append in El. rewrite T in El. cbn [contained bindR] in El. rewrite Ta in El. cbn [ty_eqb] in El.
      apply call_ok in El. subst l.
      destruct (st x) as [[| |lx| |]|] eqn:SX; try discriminate.
      destruct (pyeval U true st e) as [w|] eqn:P; [|discriminate]. specialize (La st w LW P). subst w.
      specialize (LW x o2 _ DX SX). eexists. split; [exact R|]. split; auto. cbn [write vars]. apply slink_write; auto.
      cbn [o_src eval mapO map]. rewrite LW, Eva. apply (lib_append I LIB).
  - contradiction.
  - (* return *)
    right. destruct PS as (p & DP & NP). rewrite DP in V. ok V q Eqq. ok V ps Eps. ok V a Ea. injection V as <- <-.
    destruct q as [o s2]. cbn [fst snd] in *. destruct (ety G uninterp e) as [t|] eqn:Et; [|discriminate].
    destruct (vexpr_sound I U G uninterp LIB UNI S r e s ST t o s2 Eqq Et) as (-> & To & Go & v & Ev & Tv & L).
    destruct (pyeval U true st e) as [w|] eqn:P; [|discriminate]. injection R as <-. specialize (L st w LW P). subst w.
    exists v. split; auto. cbn [set_returned add_assert asserts]. intros F. apply Forall_app in F as [_ F].
    inversion F as [|? ? Fa _]; subst. apply call_ok in Eps. subst ps. cbn [o_src] in Ea.
    apply (under_true I S r _ _ _ Ea PC TP) in Fa. cbn [eval] in Fa. rewrite map_app in Fa. cbn [map] in Fa.
    rewrite (mapO_app _ _ _ _ [o_src o] vs0 [v] FA) in Fa by (cbn [mapO]; now rewrite Ev).
    rewrite NP in Fa. exact Fa.
  - (* if *)
    destruct (ety G uninterp c) as [[]|] eqn:Et; try discriminate. apply andb_true_iff in OK as [OB OE].
    ok V p Ep. destruct p as [oc s2]. cbn [fst snd] in *.
    destruct (vexpr_sound I U G uninterp LIB UNI S r c s ST TBool oc s2 Ep Et) as (-> & Tc & Gc & vc & Evc & Tvc & L).
    rewrite Tc in V. cbn [ty_eqb negb] in V. ok V nc Enc. apply not_ok in Enc. subst nc.
    ok V x Ex. ok V y Ey. ok V s3 Es3. injection V as <- <-. destruct x as [gx sx], y as [gy sy]. cbn [fst snd] in *.
    cbn [not_lost count] in NL. change (list_sum (map count bb)) with (counts bb) in *. change (list_sum (map count els)) with (counts els) in *.
    assert (PCb : Forall (good S) (precond (add_precond s (o_src oc)))) by (cbn; apply Forall_app; split; auto).
    assert (PCe : Forall (good S) (precond (add_precond s (Node KNot TBool [o_src oc])))).
    { cbn. apply Forall_app. split; auto. constructor; auto. now apply good_not. }
    destruct (lfs_stmts I U G uninterp LIB UNI SIMPLE fn fargs types params FARGS bb S r true g (add_precond s (o_src oc)) gx sx) as (-> & Sb); auto; [lia|].
    destruct (lfs_stmts I U G uninterp LIB UNI SIMPLE fn fargs types params FARGS els S r true g (add_precond s (Node KNot TBool [o_src oc])) gy sy) as (-> & Se); auto; [lia|].
    destruct (pyeval U true st c) as [w|] eqn:P; [|discriminate]. specialize (L st w LW P). subst w.
    apply of_bool in Tvc as (bc & ->).
    assert (OUT : forall o, RUN n (if bc then bb else els) st = Some o -> outcome_ok r (if bc then sx else sy) o).
    { intros o0 R0. destruct bc.
      - eapply DYN; eauto.
        + destruct NL as [NL|[NL NE]]; [left; lia | right; split; [lia | exact NE]].
        + cbn. apply Forall_app. split; auto.
      - eapply DYN; eauto.
        + destruct NL as [NL|[NL NE]]; [left; lia | right; split; [lia | exact NE]].
        + cbn. apply Forall_app. split; auto. constructor; auto. cbn [eval mapO]. now rewrite Evc. }
    destruct Sb as (STb & _ & Fb & Mb & Ab & nb & Anb & Lb). destruct Se as (STe & _ & Fe & Me & Ae & ne & Ane & Le).
    cbn [add_precond asserts vars] in Fb, Mb, Ab, Anb, Fe, Me, Ae, Ane.
    assert (AS : asserts s3 = merge_asserts (asserts s) (asserts sx ++ asserts sy)).
    { unfold merge_if in Es3. destruct (has_returned sx), (has_returned sy); try (injection Es3 as <-; reflexivity).
      destruct (existsb _ _); [discriminate|]. ok Es3 d Ed. injection Es3 as <-. reflexivity. }
    rewrite merge_asserts_eq in AS.
    destruct (RUN n (if bc then bb else els) st) as [[st'|v]|] eqn:RB; [| |discriminate].
    2:{ (* the branch returns *)
        injection R as <-. right. exists v. split; auto. intros F. apply (OUT _ eq_refl).
        destruct NL as [NL|[NL NE]].
        - rewrite AS in F. apply Forall_app in F as [F _].
          assert (nb = []) by (destruct nb; auto; cbn in Lb; lia). assert (ne = []) by (destruct ne; auto; cbn in Le; lia).
          subst nb ne. rewrite app_nil_r in Anb, Ane. destruct bc; congruence.
        - rewrite NE in AS, Anb, Ane. cbn [app] in AS, Anb, Ane. rewrite Anb, Ane in AS. rewrite AS in F.
          assert (X : asserts (if bc then sx else sy) = if bc then nb else ne) by (destruct bc; auto). rewrite X. clear X.
          destruct nb as [|e1 [|]]; [| |cbn in Lb; lia].
          + cbn [app] in F. destruct bc; [constructor|].
            destruct ne as [|e2 [|]]; [constructor | exact F | cbn in Le; lia].
          + assert (X : ne = []) by (destruct ne; auto; cbn in *; lia). rewrite X in *. cbn [app] in F.
            destruct bc; [exact F | constructor]. }
    left. exists st'. split; auto. specialize (OUT _ eq_refl). cbn [outcome_ok] in OUT. destruct OUT as [LK' NR].
    unfold merge_if in Es3. destruct (has_returned sx) eqn:Rx, (has_returned sy) eqn:Ry.
    + destruct bc; congruence.
    + injection Es3 as <-. destruct bc; [congruence|]. split; auto.
    + injection Es3 as <-. destruct bc; [|congruence]. split; auto.
    + destruct (existsb _ _) eqn:EX; [discriminate|]. ok Es3 d Ed. injection Es3 as <-.
      destruct (merge_vars_spec oc (vars sx) (vars sy) (vars s) d (proj1 STb) (proj1 ST) Ed) as (ND & D1 & D2).
      split; auto. cbn [set_vars vars]. intros x w HX. destruct (LK' x w HX) as (o & DO & EO).
      assert (DX : exists ce, dget (vars sx) x = Some ce).
      { destruct bc; [eauto|]. destruct (dget (vars sx) x) as [ce|] eqn:DX; [eauto|]. exfalso.
        assert (OO : only_in_one (vars s) (vars sx) (vars sy) x = true).
        { unfold only_in_one. assert (dmem (vars sy) x = true) as -> by (apply dmem_some; eauto).
          assert (dmem (vars sx) x = false) as NX by (unfold dmem; now rewrite DX). rewrite NX. cbn.
          destruct (dmem (vars s) x) eqn:DS; auto. apply Mb in DS. congruence. }
        assert (existsb (only_in_one (vars s) (vars sx) (vars sy)) (dkeys (vars sx) ++ dkeys (vars sy)) = true); [|congruence].
        apply existsb_exists. exists x. split; auto. apply in_app_iff. right. eapply dget_key; eauto. }
      destruct DX as (ce & DX). destruct (D2 x ce DX) as (ae & o' & DA & DD & MM). exists o'. split; auto.
      destruct (proj2 STb x ce DX) as (T1 & G1 & _). destruct (proj2 STe x ae DA) as (T2 & G2 & _).
      rewrite (merged_value I S r oc ce ae o' bc Evc G1 G2); auto.
      * destruct bc; congruence.
      * eapply g_simple; eauto.
      * intros u TL. rewrite forallb_forall in OB, OE.
        assert (NW : forall l, (forall st, In st l -> ok_stmt G uninterp params true st = true) -> ~ In x (flat_map stmt_writes l)).
        { intros l OKl IN. apply in_flat_map in IN as (s9 & IN9 & INx).
          apply (no_list_writes G uninterp params s9 (OKl s9 IN9) x u INx). congruence. }
        destruct (Fb x ce DX (NW _ OB)) as (o1 & DS1 & E1). destruct (Fe x ae DA (NW _ OE)) as (o2 & DS2 & E2). congruence.
  - discriminate.
Qed.

Lemma dyn_all n : dyn n.
Proof.
  induction n as [|n IH]; intros b S r in_if g s g' s' st out R V C OK SUB ST PC TP FA LK HR PS; [discriminate|].
  destruct b as [|st0 b].
  - cbn [run] in R. cbn [runS] in V. injection R as <-. injection V as <- <-. cbn. auto.
  - cbn [runS] in V. ok V gs E1. destruct gs as [g1 s1]. rewrite counts_cons in C. cbn [forallb] in OK.
    apply andb_true_iff in OK as [O1 O2].
    assert (NW : not_lost st0 s).
    { destruct st0; cbn [not_lost]; auto.
      - cbn [count] in C. lia.
      - destruct C as [C|[C E]]; [left; lia | right; split; [lia | auto]]. }
    destruct (lfs_all I U G uninterp LIB UNI SIMPLE fn fargs types params FARGS st0 S r in_if g s g1 s1) as (-> & S1); auto; [lia|].
    assert (PC1 : Forall (good S) (precond s1)) by (rewrite (proj1 (proj2 S1)); auto).
    assert (C1 : counts b = 0%nat \/ (counts b <= 1)%nat /\ asserts s1 = []).
    { destruct S1 as (_ & _ & _ & _ & _ & new & A1 & L1). destruct C as [C|[C E]]; [left; lia|].
      destruct (counts b) eqn:CB; auto. right. split; [lia|]. destruct new; [|cbn in L1; lia]. now rewrite A1, E. }
    destruct (step n st0 b S r in_if g s g s1 st out) as [(st1 & R1 & LK1 & HR1)|(v & -> & F)]; auto.
    + eapply (IH b S r in_if g s1 g'); eauto; [apply S1 | now rewrite (proj1 (proj2 S1))].
    + cbn [outcome_ok]. intros FT. apply F.
      destruct (lfs_stmts I U G uninterp LIB UNI SIMPLE fn fargs types params FARGS b S r in_if g s1 g' s') as (-> & S2); auto; [lia | apply S1 |].
      destruct S2 as (_ & _ & _ & _ & _ & new & A1 & _). rewrite A1 in FT. now apply Forall_app in FT.
Qed.

Lemma never_returns n : forall b st v, counts b = 0%nat -> RUN n b st <> Some (Returns v).
Proof.
  induction n as [|n IH]; intros b st v C R; [discriminate|]. destruct b as [|st0 b]; [discriminate|].
  rewrite counts_cons in C. destruct st0 as [xs e|e|id c bb|e|c bb els|]; cbn [run] in R; cbn [count] in C.
  - destruct xs as [|x []]; try discriminate. destruct (pyeval U true st e); [|discriminate].
    destruct (copies_list e v0); [discriminate|]. eapply IH; eauto.
  - assert (X : (exists st', RUN n b st' = Some (Returns v)) -> False) by (intros (st' & E); eapply IH; eauto).
    apply X. destruct e as [| | | | | | | | |ce m es];
      try (match type of R with match ?x with _ => _ end = _ => destruct x; [eauto | discriminate] end).
    destruct ce; try (match type of R with match ?x with _ => _ end = _ => destruct x; [eauto | discriminate] end).
    destruct es as [|a [|]]; try (match type of R with match ?x with _ => _ end = _ => destruct x; [eauto | discriminate] end).
    destruct (st x) as [[]|]; try discriminate. destruct (pyeval U true st a); [|discriminate]. eauto.
  - lia.
  - discriminate.
  - change (list_sum (map count bb)) with (counts bb) in *. change (list_sum (map count els)) with (counts els) in *.
    destruct (pyeval U true st c) as [[|t| | |]|]; try discriminate.
    destruct (RUN n (if t then bb else els) st) as [[st'|v']|] eqn:RB; try discriminate.
    + eapply IH; [|exact R]. lia.
    + eapply IH; [|exact RB]. destruct t; lia.
  - discriminate.
Qed.

(** *** Loops *)

Definition tracked (x : string) (o : obj) : Prop := exists t, dget G x = Some t /\ o = var_obj t x.

Lemma objects_of_spec xs : forall os, objects_of types xs = Ok os -> Forall2 tracked xs os.
Proof.
  induction xs as [|x xs IH]; intros os H.
  - cbn in H. injection H as <-. constructor.
  - unfold objects_of in H. cbn [mapR] in H. ok H o E. ok H os' E'. injection H as <-. constructor; auto.
    destruct (dget types x) as [mt|] eqn:D; [|discriminate]. ok E t Et. injection E as <-.
    exists t. split; auto. apply dget_in in D. unfold recorded in RECORDED. rewrite forallb_forall in RECORDED.
    specialize (RECORDED _ D). cbn [fst snd] in RECORDED. rewrite Et in RECORDED.
    destruct (dget G x); [|discriminate]. apply ty_eqb_eq in RECORDED. congruence.
Qed.

Lemma havoc_spec ws os : Forall2 tracked ws os -> forall g s g' s', havoc os g s = Ok (g', s') ->
  g_post g' = g_post g /\ precond s' = precond s /\ asserts s' = asserts s /\ has_returned s' = has_returned s /\
  (NoDup (dkeys (vars s)) -> NoDup (dkeys (vars s'))) /\
  (forall x, In x ws -> exists t, dget G x = Some t /\ dget (vars s') x = Some (var_obj t x)) /\
  (forall x, ~ In x ws -> dget (vars s') x = dget (vars s) x).
Proof.
  induction 1 as [|x o ws os (t & T & ->) _ IH]; intros g s g' s' H; cbn [havoc] in H.
  - injection H as <- <-. repeat (split; auto). intros x [].
  - cbn [bindR var_name var_obj o_src mkVar] in H. destruct (IH _ _ _ _ H) as (P & Q & A & R & N & X & Y).
    cbn [write add_var_object precond asserts vars has_returned g_post] in *.
    split; auto. split; auto. split; auto. split; auto. split; [intros; apply N; now apply dset_nodup|]. split.
    + intros y [<-|IN]; auto. destruct (in_dec string_dec x ws) as [IN|NI]; auto.
      rewrite (Y x NI), dget_dset, String.eqb_refl. eauto.
    + intros y NI. rewrite Y by (intros IN; apply NI; right; auto). rewrite dget_dset.
      destruct (String.eqb y x) eqn:E; auto. apply String.eqb_eq in E. subst. exfalso. apply NI. left; auto.
Qed.

Lemma good_agree S W r r1 e : (forall x, ~ In x W -> r1 x = r x) -> (forall x, In x W -> In x S -> False) -> good S e ->
  eval I r1 e = eval I r e.
Proof. intros A D [_ V]. apply eval_agree. intros x IN. apply A. intros INW. eauto. Qed.

Lemma havoc_static S W r r1 d d1 : Static S r d -> NoDup (dkeys d1) ->
  (forall x, In x W -> exists t, dget G x = Some t /\ dget d1 x = Some (var_obj t x)) ->
  (forall x, ~ In x W -> dget d1 x = dget d x) ->
  (forall x, ~ In x W -> r1 x = r x) -> (forall x, In x W -> In x S -> False) -> fits G r1 ->
  Static (S ++ W) r1 d1.
Proof.
  intros [N ST] N1 X Y A D F. split; auto. intros x o DX. destruct (in_dec string_dec x W) as [IN|NI].
  - destruct (X x IN) as (t & T & E). rewrite DX in E. injection E as ->. cbn [var_obj o_ty o_src]. split; auto. split.
    { split; [reflexivity|]. cbn. intros y [<-|[]]. apply in_app_iff; auto. }
    split; [intros u y _ H; cbn in H; congruence|]. destruct (F x t T) as (v & E & Tv). exists v. split; auto.
  - rewrite (Y x NI) in DX. destruct (ST x o DX) as (T & G1 & NM & v & E & Tv). split; auto. split.
    { eapply good_weaken; eauto. intros y. rewrite in_app_iff. auto. }
    split; auto. exists v. split; auto. rewrite <- E. eapply good_agree; eauto.
Qed.

Lemma pred_call_ok p s e : pred_call p s = Ok e -> exists os,
  mapR (fun v => x <- var_name v ;; read s x) (p_args p) = Ok os /\ e = Node KCall TBool (Atom (PStr (p_name p)) :: map o_src os).
Proof.
  unfold pred_call. intros H. ok H os E. ok H o Eo. apply call_ok in Eo. subst o. injection H as <-. eauto.
Qed.

Lemma pred_args_spec s args : forall os, mapR (fun v => x <- var_name v ;; read s x) args = Ok os ->
  Forall2 (fun a o => exists x, var_name a = Ok x /\ dget (vars s) x = Some o) args os.
Proof.
  induction args as [|a args IH]; intros os H; cbn [mapR] in H.
  - injection H as <-. constructor.
  - ok H o E. ok H os' E'. injection H as <-. constructor; auto. ok E x Ex. unfold read in E.
    destruct (dget (vars s) x) eqn:D; [|discriminate]. injection E as <-. eauto.
Qed.

Lemma pred_call_good S r p s e : Static S r (vars s) -> pred_call p s = Ok e -> good S e.
Proof.
  intros ST H. apply pred_call_ok in H as (os & M & ->). apply pred_args_spec in M. apply good_call.
  induction M as [|a o args os (x & _ & D) _ IH]; cbn [map]; constructor; auto. apply (proj2 ST x o D).
Qed.

Lemma pred_call_same r r' p s s' e e' : pred_call p s = Ok e -> pred_call p s' = Ok e' ->
  (forall x o o', dget (vars s) x = Some o -> dget (vars s') x = Some o' -> eval I r (o_src o) = eval I r' (o_src o')) ->
  eval I r e = eval I r' e'.
Proof.
  intros H H' EQ. apply pred_call_ok in H as (os & M & ->). apply pred_call_ok in H' as (os' & M' & ->).
  apply pred_args_spec in M, M'. cbn [eval].
  assert (X : mapO (eval I r) (map o_src os) = mapO (eval I r') (map o_src os')).
  { revert os' M'. induction M as [|a o args os (x & Vx & D) _ IH]; intros os' M'; inversion M' as [|? o' ? ? (y & Vy & D') M'']; subst; auto.
    cbn [map mapO]. rewrite Vx in Vy. injection Vy as <-. rewrite (EQ x o o' D D'), (IH _ M''). reflexivity. }
  now rewrite X.
Qed.

(** a value of each type *)
Definition some_prim (t : ty) : val := match t with TBool => VBool false | _ => VInt 0 end.
Definition some_val (t : ty) : val :=
  match t with TList _ => VList [] | TTuple ts => VTuple (map some_prim ts) | _ => some_prim t end.
Lemma some_val_ok t : simple_type t = true -> of_type t (some_val t) = true.
Proof.
  destruct t as [| |u| | | |ts|]; try discriminate; auto. cbn [simple_type some_val of_type]. intros H.
  induction ts as [|t ts IH]; auto. cbn [forallb map] in *. apply andb_true_iff in H as [H1 H2].
  apply andb_true_iff. split; [destruct t; try discriminate; reflexivity | auto].
Qed.

(** the values of the havocked variables are those they have in [d] *)
Definition enter (W : list string) (r : env) (d : dict obj) : env := fun x =>
  if smem x W then
    match dget d x with
    | Some o => eval I r (o_src o)
    | None => match dget G x with Some t => Some (some_val t) | None => None end
    end
  else r x.

Lemma enter_out W r d x : ~ In x W -> enter W r d x = r x.
Proof. intros NI. unfold enter. destruct (smem x W) eqn:M; auto. apply smem_true in M. contradiction. Qed.
Lemma enter_in W r d x o : In x W -> dget d x = Some o -> enter W r d x = eval I r (o_src o).
Proof. intros IN D. unfold enter. apply smem_true in IN. now rewrite IN, D. Qed.
Lemma enter_fits S W r d r1 : Static S r1 d -> fits G r -> fits G (fun x => if smem x W then enter W r1 d x else r x).
Proof.
  intros [_ ST] F x t T. unfold enter. destruct (smem x W); [|auto]. destruct (dget d x) as [o|] eqn:D.
  - destruct (ST x o D) as (T' & _ & _ & v & E & Tv). exists v. split; auto. congruence.
  - rewrite T. eexists. split; [reflexivity|]. apply some_val_ok. eapply g_simple; eauto.
Qed.
Lemma enter_fits' S W r d : Static S r d -> fits G r -> fits G (enter W r d).
Proof.
  intros ST F x t T. destruct (enter_fits S W r d r ST F x t T) as (v & E & Tv). exists v. split; auto.
  rewrite <- E. unfold enter. destruct (smem x W); reflexivity.
Qed.

(** visiting a loop: the pieces *)
Lemma while_parts S r id c body g s g' s' : let W := stmt_writes (SWhile id c body) in
  VS (SWhile id c body) (g, s) = Ok (g', s') -> counts body = 0%nat ->
  ok_stmt G uninterp params false (SWhile id c body) = true -> incl params S ->
  (forall x, In x W -> In x S -> False) ->
  Static S r (vars s) -> Forall (good S) (precond s) -> fits G r ->
  exists p s1 sb gh i0 a0 i1 hyp i2 oc,
    pred_call p s = Ok i0 /\ under_precond s i0 = Ok a0 /\
    precond s1 = precond s /\ asserts s1 = asserts s ++ [a0] /\ has_returned s1 = has_returned s /\
    g_post gh = g_post g /\ g' = gh /\
    (forall x, In x W -> exists t, dget G x = Some t /\ dget (vars s1) x = Some (var_obj t x)) /\
    (forall x, ~ In x W -> dget (vars s1) x = dget (vars s) x) /\
    NoDup (dkeys (vars s1)) /\
    VB body (gh, s1) = Ok (gh, sb) /\
    VE c s1 = Ok (oc, s1) /\ ety G uninterp c = Some TBool /\
    pred_call p s1 = Ok i1 /\ and_objects (precond s ++ [o_src oc; i1]) = Ok hyp /\ pred_call p sb = Ok i2 /\
    precond s' = precond s ++ [Node KAnd TBool [Node KNot TBool [o_src oc]; i1]] /\
    vars s' = vars s1 /\ asserts s' = asserts s ++ [a0; Node KImplies TBool [hyp; i2]] /\ has_returned s' = has_returned s.
Proof.
  intros W V CB OK SUB DJ ST PC F. cbn [vstmt fst snd] in V. cbn [ok_stmt] in OK.
  destruct (ety G uninterp c) as [[]|] eqn:Et; try discriminate.
  ok V wr Ewr. ok V rd Erd. ok V sc Esc. ok V gi Egi. destruct gi as [g1 p]. cbn [fst snd] in V.
  ok V i0 Ei0. ok V a0 Ea0. ok V h Eh. destruct h as [gh s1]. cbn [fst snd] in V. ok V b Eb. destruct b as [gb sb]. cbn [fst snd] in V.
  ok V pc Epc. destruct pc as [oc s2]. cbn [fst snd] in V. ok V i1 Ei1. ok V hyp Ehyp. ok V i2 Ei2. ok V a1 Ea1. ok V a1' Ea1'.
  ok V nc Enc. ok V i3 Ei3. ok V exx Eex. injection V as <- <-.
  apply objects_of_spec in Ewr. destruct (havoc_spec _ _ Ewr _ _ _ _ Eh) as (HP & HC & HA & HR & HN & HX & HY).
  cbn [add_assert precond asserts has_returned vars] in HC, HA, HR, HN, HX, HY.
  fold W in HX, HY.
  assert (HX' : forall x, In x W -> exists t, dget G x = Some t /\ dget (vars s1) x = Some (var_obj t x)).
  { intros x IN. apply HX. now apply sorted_set_in. }
  assert (HY' : forall x, ~ In x W -> dget (vars s1) x = dget (vars s) x).
  { intros x NI. apply HY. now rewrite sorted_set_in. }
  assert (STh : Static (S ++ W) (enter W r (vars s)) (vars s1)).
  { eapply havoc_static; eauto; [apply HN; apply ST | intros; now apply enter_out | eapply enter_fits'; eauto]. }
  destruct (vexpr_sound I U G uninterp LIB UNI _ _ c s1 STh TBool oc s2 Epc Et) as (-> & _ & GC & _).
  destruct (lfs_stmts I U G uninterp LIB UNI SIMPLE fn fargs types params FARGS body (S ++ W) (enter W r (vars s)) false gh s1 gb sb) as (-> & _); auto.
  { lia. }
  { intros x IN. apply in_app_iff. auto. }
  { rewrite HC. eapply Forall_impl; [|exact PC]. intros e GE. eapply good_weaken; eauto. intros y. rewrite in_app_iff. auto. }
  apply implies_ok in Ea1. apply bool_obj in Ea1'. subst a1 a1'. apply not_ok in Enc. subst nc.
  assert (i3 = i1) as ->.
  { change (pred_call p (add_assert s1 (Node KImplies TBool [hyp; i2]))) with (pred_call p s1) in Ei3. congruence. }
  rewrite HC in Ehyp.
  assert (XE : exx = Node KAnd TBool [Node KNot TBool [o_src oc]; i1]).
  { apply objects_split in Eex. apply pred_call_ok in Ei1 as (os & _ & ->).
    unfold os_init in Eex. cbn [os_init_from os_add os_contains existsb expr_eqb kind_eqb andb orb app nary_exprs fold_exprs] in Eex.
    cbn in Eex. congruence. }
  subst exx.
  exists p, s1, sb, gh, i0, a0, i1, hyp, i2, oc. cbn [add_precond add_assert precond vars asserts has_returned].
  rewrite HP, (invariant_post _ _ _ _ _ _ _ _ _ Egi), HC, HA, HR, <- app_assoc.
  repeat (split; [solve [auto]|]). split; [apply HN; apply ST|]. repeat (split; [solve [auto]|]). auto.
Qed.

Lemma fargs_agree S W r r1 : incl params S -> (forall x, ~ In x W -> r1 x = r x) -> (forall x, In x W -> In x S -> False) ->
  fargsok r -> fargsok r1.
Proof.
  intros SUB A D F. unfold fargsok in *. rewrite <- F. apply mapO_ext. intros e IN.
  specialize (FARGS S SUB). rewrite Forall_forall in FARGS. eapply good_agree; eauto.
Qed.

Lemma true_agree S W r r1 l : (forall x, ~ In x W -> r1 x = r x) -> (forall x, In x W -> In x S -> False) ->
  Forall (good S) l -> true_at r l -> true_at r1 l.
Proof.
  intros A D GL T. rewrite Forall_forall in *. intros e IN. rewrite (good_agree S W r r1 e A D (GL e IN)). auto.
Qed.

(** after the loop, whatever the loop did *)
Lemma while_static S r id c body g s g' s' : let W := stmt_writes (SWhile id c body) in
  VS (SWhile id c body) (g, s) = Ok (g', s') -> counts body = 0%nat ->
  ok_stmt G uninterp params false (SWhile id c body) = true -> incl params S ->
  (forall x, In x W -> In x S -> False) ->
  Static S r (vars s) -> Forall (good S) (precond s) -> fits G r ->
  g_post g' = g_post g /\ has_returned s' = has_returned s /\
  Forall (good (S ++ W)) (precond s') /\
  (Forall (fun e => plain e = true) (asserts s) -> Forall (fun e => plain e = true) (asserts s')) /\
  (exists new, asserts s' = asserts s ++ new) /\
  (forall r1, (forall x, ~ In x W -> r1 x = r x) -> fits G r1 -> Static (S ++ W) r1 (vars s')) /\
  Static (S ++ W) (enter W r (vars s)) (vars s') /\ fits G (enter W r (vars s)).
Proof.
  intros W V CB OK SUB DJ ST PC F.
  destruct (while_parts S r id c body g s g' s' V CB OK SUB DJ ST PC F)
    as (p & s1 & sb & gh & i0 & a0 & i1 & hyp & i2 & oc & Ei0 & Ea0 & HC & HA & HR & HP & -> & HX & HY & HN & EB & EC & Et & Ei1 & Ehyp & Ei2 & PC' & VS' & AS' & HR').
  assert (FE : fits G (enter W r (vars s))) by (eapply enter_fits'; eauto).
  assert (STr : forall r1, (forall x, ~ In x W -> r1 x = r x) -> fits G r1 -> Static (S ++ W) r1 (vars s1)).
  { intros r1 A F1. eapply havoc_static; eauto. }
  assert (STh : Static (S ++ W) (enter W r (vars s)) (vars s1)).
  { apply STr; auto. intros x NI. now apply enter_out. }
  assert (PW : Forall (good (S ++ W)) (precond s)).
  { eapply Forall_impl; [|exact PC]. intros e GE. eapply good_weaken; eauto. intros y. rewrite in_app_iff. auto. }
  destruct (vexpr_sound I U G uninterp LIB UNI _ _ c s1 STh TBool oc s1 EC Et) as (_ & _ & GC & _).
  pose proof (pred_call_good _ _ _ _ _ STh Ei1) as Gi1.
  split; auto. split; auto. split.
  { rewrite PC'. apply Forall_app. split; auto. constructor; auto. apply good2; try congruence; auto. now apply good_not. }
  split; [|split; [eexists; exact AS'|split; [rewrite VS'; auto | split; [rewrite VS'; auto | auto]]]].
  intros PA. rewrite AS'. apply Forall_app. split; auto.
  pose proof (pred_call_good _ _ _ _ _ ST Ei0) as Gi0. pose proof (under_ok S s i0 a0 Ea0 PC Gi0) as Ga0.
  constructor; [apply Ga0|]. constructor; auto.
  destruct (lfs_stmts I U G uninterp LIB UNI SIMPLE fn fargs types params FARGS body (S ++ W) (enter W r (vars s)) false gh s1 gh sb) as (_ & Sb); auto.
  { lia. }
  { cbn [ok_stmt] in OK. rewrite Et in OK. exact OK. }
  { intros x IN. apply in_app_iff. auto. }
  { now rewrite HC. }
  pose proof (pred_call_good _ _ _ _ _ (proj1 Sb) Ei2) as [Pi2 _].
  assert (GH : good (S ++ W) hyp).
  { eapply (objects_good KAnd); [left; auto | exact Ehyp |]. apply Forall_app. split; auto. }
  cbn [plain forallb]. rewrite Pi2, (proj1 GH). reflexivity.
Qed.

(** going through the loop *)
Lemma while_dyn S r id c body rest g s g' s' : let W := stmt_writes (SWhile id c body) in
  VS (SWhile id c body) (g, s) = Ok (g', s') -> counts body = 0%nat ->
  ok_stmt G uninterp params false (SWhile id c body) = true -> incl params S ->
  (forall x, In x W -> In x S -> False) ->
  Static S r (vars s) -> Forall (good S) (precond s) -> fits G r -> pspred g -> fargsok r -> true_at r (precond s) ->
  has_returned s = false ->
  (forall r1, fits G r1 -> true_at r1 (asserts s')) ->
  forall n st out, SLink r st (vars s) -> RUN n (SWhile id c body :: rest) st = Some out ->
  exists r1 st1 m, (forall x, ~ In x W -> r1 x = r x) /\ fits G r1 /\ SLink r1 st1 (vars s') /\
    true_at r1 (precond s') /\ RUN m rest st1 = Some out.
Proof.
  intros W V CB OK SUB DJ ST PC F PS FA TP HRF AH.
  destruct (while_parts S r id c body g s g' s' V CB OK SUB DJ ST PC F)
    as (p & s1 & sb & gh & i0 & a0 & i1 & hyp & i2 & oc & Ei0 & Ea0 & HC & HA & HR & HP & -> & HX & HY & HN & EB & EC & Et & Ei1 & Ehyp & Ei2 & PC' & VS' & AS' & HR').
  assert (OKB : forallb (ok_stmt G uninterp params false) body = true) by (cbn [ok_stmt] in OK; rewrite Et in OK; exact OK).
  assert (FE : fits G (enter W r (vars s))) by (eapply enter_fits'; eauto).
  assert (STr : forall r1, (forall x, ~ In x W -> r1 x = r x) -> fits G r1 -> Static (S ++ W) r1 (vars s1)).
  { intros r1 A F1. eapply havoc_static; eauto. }
  assert (PW : Forall (good (S ++ W)) (precond s)).
  { eapply Forall_impl; [|exact PC]. intros e GE. eapply good_weaken; eauto. intros y. rewrite in_app_iff. auto. }
  assert (SUBW : incl params (S ++ W)) by (intros x IN; apply in_app_iff; auto).
  assert (PS' : pspred gh) by (destruct PS as (q & D & N); exists q; rewrite HP; auto).
  pose (Head := fun (r1 : env) (st : store) => fits G r1 /\ (forall x, ~ In x W -> r1 x = r x) /\
                SLink r1 st (vars s1) /\ eval I r1 i1 = Some (VBool true)).
  assert (ITER : forall n r1 st out, Head r1 st -> RUN n (SWhile id c body :: rest) st = Some out ->
            exists r2 st2 m, Head r2 st2 /\ eval I r2 (o_src oc) = Some (VBool false) /\ RUN m rest st2 = Some out).
  { induction n as [|n IH]; intros r1 st out (F1 & A1 & L1 & T1) R; [discriminate|].
    pose proof (STr r1 A1 F1) as ST1.
    destruct (vexpr_sound I U G uninterp LIB UNI _ _ c s1 ST1 TBool oc s1 EC Et) as (_ & _ & GC & vc & Evc & Tvc & Lc).
    cbn [run] in R. destruct (pyeval U true st c) as [w|] eqn:P; [|discriminate].
    specialize (Lc st w (slink_link _ _ _ L1) P). subst w. apply of_bool in Tvc as (bc & ->). destruct bc.
    2:{ exists r1, st, n. split; [repeat split; auto|]. auto. }
    destruct (RUN n body st) as [[st'|v]|] eqn:RB; [| |discriminate].
    2:{ exfalso. eapply never_returns; eauto. }
    assert (TP1 : true_at r1 (precond s1)) by (rewrite HC; eapply true_agree; eauto).
    assert (FA1 : fargsok r1) by exact (fargs_agree S W r r1 SUB A1 DJ FA).
    assert (PC1 : Forall (good (S ++ W)) (precond s1)) by (now rewrite HC).
    assert (OUT : outcome_ok r1 sb (Goes st')).
    { eapply (dyn_all n body (S ++ W) r1 false gh s1); eauto; congruence. }
    destruct OUT as [L2 _].
    destruct (lfs_stmts I U G uninterp LIB UNI SIMPLE fn fargs types params FARGS body (S ++ W) r1 false gh s1 gh sb) as (_ & Sb); auto; [lia|].
    destruct Sb as (STb & _ & Fb & Mb & _).
    assert (Ti2 : eval I r1 i2 = Some (VBool true)).
    { specialize (AH r1 F1). rewrite AS' in AH. apply Forall_app in AH as [_ AH]. inversion AH as [|? ? _ AH']; subst.
      inversion AH' as [|? ? AI _]; subst. cbn [eval mapO] in AI.
      assert (TH : eval I r1 hyp = Some (VBool true)).
      { eapply and_true; [exact Ehyp | |].
        - apply goods_plain with (S := S ++ W). apply Forall_app. split; auto. constructor; auto. constructor; [|constructor].
          exact (pred_call_good _ _ _ _ _ ST1 Ei1).
        - apply Forall_app. split; [eapply true_agree; eauto|]. constructor; auto. }
      rewrite TH in AI. destruct (eval I r1 i2) as [[]|]; cbn in AI; try discriminate. congruence. }
    pose (r2 := fun x => if smem x W then enter W r1 (vars sb) x else r x).
    assert (F2 : fits G r2) by (eapply enter_fits; eauto).
    assert (A2 : forall x, ~ In x W -> r2 x = r x).
    { intros x NI. unfold r2. destruct (smem x W) eqn:M; auto. apply smem_true in M. contradiction. }
    assert (SUBW2 : forall x, ~ In x W -> ~ In x (flat_map stmt_writes body)).
    { intros x NI IN. apply NI. unfold W. cbn [stmt_writes]. apply in_app_iff. auto. }
    assert (SAME : forall x o o', dget (vars s1) x = Some o -> dget (vars sb) x = Some o' ->
              eval I r2 (o_src o) = eval I r1 (o_src o')).
    { intros x o o' D D'. destruct (in_dec string_dec x W) as [IN|NI].
      - destruct (HX x IN) as (t & _ & E). rewrite D in E. injection E as ->. cbn [var_obj o_src mkVar eval].
        unfold r2. rewrite (proj2 (smem_true x W) IN). eapply enter_in; eauto.
      - destruct (Fb x o' D' (SUBW2 x NI)) as (o1 & D1 & E1). rewrite D in D1. injection D1 as <-. rewrite E1.
        rewrite (HY x NI) in D. destruct (proj2 ST x o D) as (_ & GO & _).
        rewrite (good_agree S W r r2 _ A2 DJ GO), (good_agree S W r r1 _ A1 DJ GO). reflexivity. }
    apply (IH r2 st' out); auto. split; auto. split; auto. split.
    - intros x w HXW. destruct (L2 x w HXW) as (o' & D' & E').
      assert (DX : exists o, dget (vars s1) x = Some o).
      { destruct (in_dec string_dec x W) as [IN|NI]; [destruct (HX x IN) as (t & _ & E); eauto|].
        destruct (Fb x o' D' (SUBW2 x NI)) as (o1 & D1 & _). eauto. }
      destruct DX as (o & D). exists o. split; auto. now rewrite (SAME x o o' D D').
    - rewrite <- Ti2. eapply pred_call_same; eauto. }
  intros n st out LK R.
  assert (A1 : forall x, ~ In x W -> enter W r (vars s) x = r x) by (intros; now apply enter_out).
  assert (SAME : forall x o o', dget (vars s1) x = Some o -> dget (vars s) x = Some o' ->
            eval I (enter W r (vars s)) (o_src o) = eval I r (o_src o')).
  { intros x o o' D D'. destruct (in_dec string_dec x W) as [IN|NI].
    - destruct (HX x IN) as (t & _ & E). rewrite D in E. injection E as ->. cbn [var_obj o_src mkVar eval]. eapply enter_in; eauto.
    - rewrite (HY x NI), D' in D. injection D as <-. destruct (proj2 ST x o' D') as (_ & GO & _). eapply good_agree; eauto. }
  assert (HEAD : Head (enter W r (vars s)) st).
  { split; auto. split; auto. split.
    - intros x w HXW. destruct (LK x w HXW) as (o' & D' & E').
      assert (DX : exists o, dget (vars s1) x = Some o).
      { destruct (in_dec string_dec x W) as [IN|NI]; [destruct (HX x IN) as (t & _ & E); eauto|]. rewrite (HY x NI). eauto. }
      destruct DX as (o & D). exists o. split; auto. now rewrite (SAME x o o' D D').
    - assert (T0 : eval I r i0 = Some (VBool true)).
      { eapply under_true; eauto. specialize (AH r F). rewrite AS' in AH. apply Forall_app in AH as [_ AH]. now inversion AH. }
      rewrite <- T0. eapply pred_call_same; eauto. }
  destruct (ITER n _ st out HEAD R) as (r2 & st2 & m & (F2 & A2 & L2 & T2) & EF & RM).
  exists r2, st2, m. split; auto. split; auto. split; [now rewrite VS'|]. split; auto.
  rewrite PC'. apply Forall_app. split; [eapply true_agree; eauto|]. constructor; auto.
  cbn [eval mapO]. rewrite EF, T2. reflexivity.
Qed.

(** *** The body of a function *)

Lemma fresh_disjoint st b S : (match st with SWhile _ _ _ => True | _ => False end) -> fresh_loops S (st :: b) = true ->
  (forall x, In x (stmt_writes st) -> In x S -> False) /\ fresh_loops (S ++ stmt_writes st) b = true.
Proof.
  destruct st; try contradiction. intros _ H. cbn [fresh_loops] in H. apply andb_true_iff in H as [H1 H2]. split; auto.
  intros x IN INS. rewrite forallb_forall in H1. specialize (H1 x IN). apply smem_true in INS. rewrite INS in H1. discriminate.
Qed.

Lemma keep_step seen st b s : (match st with SWhile _ _ _ => False | _ => True end) -> keep seen (st :: b) = true ->
  (seen = false -> asserts s = []) ->
  (count st <= 1)%nat /\ not_lost st s /\ keep (seen || negb (Nat.eqb (count st) 0)) b = true.
Proof.
  intros NW K A. destruct st; cbn [keep count not_lost] in *; try contradiction;
    repeat (split; [lia || exact Logic.I|]); cbn [Nat.eqb negb]; rewrite ?orb_false_r, ?orb_true_r; auto.
  apply andb_true_iff in K as [K1 K2]. destruct seen.
  - apply Nat.eqb_eq in K1. split; [lia|]. split; [left; lia | exact K2].
  - apply Nat.leb_le in K1. split; [lia|]. split; [right; auto | exact K2].
Qed.

Lemma body_static b : forall seen S r g s g' s',
  VB b (g, s) = Ok (g', s') -> forallb (ok_stmt G uninterp params false) b = true ->
  keep seen b = true -> fresh_loops S b = true -> incl params S ->
  Static S r (vars s) -> Forall (good S) (precond s) -> fits G r ->
  (Forall (fun e => plain e = true) (asserts s) -> Forall (fun e => plain e = true) (asserts s')) /\
  exists new, asserts s' = asserts s ++ new.
Proof.
  induction b as [|st b IH]; intros seen S r g s g' s' V OK K FL SUB ST PC F; cbn [runS] in V.
  - injection V as <- <-. split; auto. exists []. now rewrite app_nil_r.
  - ok V gs E1. destruct gs as [g1 s1]. cbn [forallb] in OK. apply andb_true_iff in OK as [O1 O2].
    destruct (match st with SWhile _ _ _ => true | _ => false end) eqn:WH.
    + assert (WH' : match st with SWhile _ _ _ => True | _ => False end) by (destruct st; try discriminate; auto).
      destruct (fresh_disjoint _ _ _ WH' FL) as [DJ FL']. destruct st as [| |id c body| | |]; try discriminate.
      cbn [keep] in K. apply andb_true_iff in K as [K1 K2]. apply Nat.eqb_eq in K1.
      destruct (while_static S r id c body g s g1 s1 E1 K1 O1 SUB DJ ST PC F) as (_ & _ & PC1 & PL & (new & AN) & _ & ST1 & F1).
      destruct (IH true _ _ _ _ _ _ V O2 K2 FL' (fun x IN => in_or_app _ _ x (or_introl (SUB x IN))) ST1 PC1 F1) as (PL2 & new2 & AN2).
      split; auto. exists (new ++ new2). now rewrite AN2, AN, app_assoc.
    + assert (WH' : match st with SWhile _ _ _ => False | _ => True end) by (destruct st; try discriminate; auto).
      destruct (keep_step seen st b {| precond := []; vars := []; asserts := []; has_returned := false |} WH' K (fun _ => eq_refl)) as (C & _ & K2).
      destruct (lfs_all I U G uninterp LIB UNI SIMPLE fn fargs types params FARGS st S r false g s g1 s1) as (-> & S1); auto.
      destruct S1 as (ST1 & PC1 & _ & _ & PL & new & AN & _).
      assert (FL' : fresh_loops S b = true) by (destruct st; try discriminate; exact FL).
      rewrite <- PC1 in PC.
      destruct (IH _ _ _ _ _ _ _ V O2 K2 FL' SUB ST1 PC F) as (PL2 & new2 & AN2).
      split; auto. exists (new ++ new2). now rewrite AN2, AN, app_assoc.
Qed.

Theorem body_sound b : forall seen S r g s g' s' n st v,
  VB b (g, s) = Ok (g', s') -> forallb (ok_stmt G uninterp params false) b = true ->
  keep seen b = true -> (seen = false -> asserts s = []) -> fresh_loops S b = true -> incl params S ->
  Static S r (vars s) -> Forall (good S) (precond s) -> fits G r -> pspred g -> fargsok r ->
  true_at r (precond s) -> has_returned s = false -> SLink r st (vars s) ->
  (forall r1, fits G r1 -> true_at r1 (asserts s')) ->
  RUN n b st = Some (Returns v) -> psok v.
Proof.
  induction b as [|st0 b IH]; intros seen S r g s g' s' n st v V OK K SN FL SUB ST PC F PS FA TP HR LK AH R.
  { destruct n; discriminate. }
  cbn [runS] in V. ok V gs E1. destruct gs as [g1 s1]. cbn [forallb] in OK. apply andb_true_iff in OK as [O1 O2].
  destruct (match st0 with SWhile _ _ _ => true | _ => false end) eqn:WH.
  - assert (WH' : match st0 with SWhile _ _ _ => True | _ => False end) by (destruct st0; try discriminate; auto).
    destruct (fresh_disjoint _ _ _ WH' FL) as [DJ FL']. destruct st0 as [| |id c body| | |]; try discriminate.
    cbn [keep] in K. apply andb_true_iff in K as [K1 K2]. apply Nat.eqb_eq in K1.
    assert (SUB' : incl params (S ++ stmt_writes (SWhile id c body))) by (intros x IN; apply in_app_iff; auto).
    destruct (while_static S r id c body g s g1 s1 E1 K1 O1 SUB DJ ST PC F) as (GP & HR1 & PC1 & PL & _ & STr & ST1 & F1).
    destruct (body_static b true _ _ _ _ _ _ V O2 K2 FL' SUB' ST1 PC1 F1) as (_ & new2 & AN2).
    destruct (while_dyn S r id c body b g s g1 s1 E1 K1 O1 SUB DJ ST PC F PS FA TP HR) with (n := n) (st := st) (out := Returns v)
      as (r1 & st1 & m & A1 & FR1 & L1 & T1 & R1); auto.
    { intros r1 FR. specialize (AH r1 FR). rewrite AN2 in AH. now apply Forall_app in AH. }
    eapply (IH true _ r1 g1 s1); eauto.
    + discriminate.
    + destruct PS as (q & D & N). exists q. rewrite GP. auto.
    + exact (fargs_agree S _ r r1 SUB A1 DJ FA).
  - assert (WH' : match st0 with SWhile _ _ _ => False | _ => True end) by (destruct st0; try discriminate; auto).
    destruct (keep_step seen st0 b s WH' K SN) as (C & NL & K2).
    destruct (lfs_all I U G uninterp LIB UNI SIMPLE fn fargs types params FARGS st0 S r false g s g1 s1) as (-> & S1); auto.
    destruct S1 as (ST1 & PC1 & _ & _ & PL & new & AN & LN).
    assert (FL' : fresh_loops S b = true) by (destruct st0; try discriminate; exact FL).
    assert (PCS : Forall (good S) (precond s1)) by now rewrite PC1.
    destruct n as [|n]; [discriminate|].
    destruct (step n st0 b S r false g s g s1 st (Returns v) (dyn_all n)) as [(st1 & R1 & L1 & HR1)|(w & E & PO)]; auto.
    + eapply (IH _ S r g s1); eauto.
      * intros SE. apply orb_false_iff in SE as [SE1 SE2]. apply negb_false_iff, Nat.eqb_eq in SE2.
        destruct new; [|cbn in LN; lia]. rewrite AN, (SN SE1). reflexivity.
      * now rewrite PC1.
    + injection E as <-. apply PO. destruct (body_static b _ _ _ _ _ _ _ V O2 K2 FL' SUB ST1 PCS F) as (_ & new2 & AN2).
      specialize (AH r F). rewrite AN2 in AH. now apply Forall_app in AH.
Qed.
End Dyn.

(** *** A whole function *)

Section Func.
Variables (I : interp) (U : string -> list val -> option val) (G : dict ty) (uninterp : list string) (types : dict mtype) (f : funcdef).
Hypothesis LIB : library I.
Hypothesis UNI : forall f vs, smem f uninterp = true -> i_call I f vs = U f vs /\ exists z, U f vs = Some (VInt z).

Definition formal_obj (p : string * mtype) (a : obj) : Prop := exists t, to_object_type (snd p) = Ok t /\ a = var_obj t (fst p).

Lemma param_objs_spec : forall args, param_objs f = Ok args -> Forall2 formal_obj (f_formals f) args.
Proof.
  unfold param_objs. generalize (f_formals f) as l. induction l as [|p l IH]; intros args H; cbn [mapR] in H.
  - injection H as <-. constructor.
  - ok H a E. ok H args' E'. injection H as <-. ok E t Et. injection E as <-. constructor; auto. exists t. auto.
Qed.

Lemma bind_formals_spec l args : Forall2 formal_obj l args -> recorded G l = true -> forall s s0, bind_formals l args s = Ok s0 ->
  precond s0 = precond s /\ asserts s0 = asserts s /\ has_returned s0 = has_returned s /\
  (NoDup (dkeys (vars s)) -> NoDup (dkeys (vars s0))) /\
  (forall x, In x (map fst l) -> exists t, dget G x = Some t /\ dget (vars s0) x = Some (var_obj t x)) /\
  (forall x, ~ In x (map fst l) -> dget (vars s0) x = dget (vars s) x).
Proof.
  induction 1 as [|[x mt] a l args (t & T & ->) _ IH]; intros RC s s0 H; cbn [bind_formals] in H.
  - injection H as <-. repeat (split; auto). intros x [].
  - cbn [fst snd] in *. unfold recorded in RC. cbn [forallb fst snd] in RC. apply andb_true_iff in RC as [R1 R2].
    rewrite T in H, R1. cbn [bindR var_obj o_ty] in H. destruct (ty_eqb t t); [|discriminate].
    destruct (dget G x) as [t'|] eqn:D; [|discriminate]. apply ty_eqb_eq in R1. subst t'.
    destruct (IH R2 _ _ H) as (P & A & R & N & X & Y). cbn [write precond asserts vars has_returned] in *.
    split; auto. split; auto. split; auto. split; [intros; apply N; now apply dset_nodup|]. split.
    + cbn [map fst]. intros y [<-|IN]; auto. destruct (in_dec string_dec x (map fst l)) as [IN|NI]; auto.
      rewrite (Y x NI), dget_dset, String.eqb_refl. eauto.
    + cbn [map fst]. intros y NI. rewrite Y by (intros IN; apply NI; right; auto). rewrite dget_dset.
      destruct (String.eqb y x) eqn:E; auto. apply String.eqb_eq in E. subst. exfalso. apply NI. left; auto.
Qed.

Definition input (p : string * mtype) (v : val) : Prop := exists t, to_object_type (snd p) = Ok t /\ of_type t v = true.

Definition start_env (l : list string) (vs : list val) : env := fun x =>
  match bind_args l vs x with
  | Some v => Some v
  | None => match dget G x with Some t => Some (some_val t) | None => None end
  end.

Lemma bind_args_spec l vs : Forall2 input l vs -> forall x v, bind_args (map fst l) vs x = Some v ->
  exists mt, In (x, mt) l /\ input (x, mt) v.
Proof.
  induction 1 as [|[y mt] w l vs IN _ IH]; intros x v H; cbn in H; [discriminate|].
  destruct (y =? x) eqn:E.
  - injection H as <-. apply String.eqb_eq in E. subst. exists mt. split; [left; auto | auto].
  - destruct (IH x v H) as (mt' & IN' & T). exists mt'. split; [right; auto | auto].
Qed.

Lemma recorded_in l x mt t : recorded G l = true -> In (x, mt) l -> to_object_type mt = Ok t -> dget G x = Some t.
Proof.
  intros RC IN T. unfold recorded in RC. rewrite forallb_forall in RC. specialize (RC _ IN). cbn [fst snd] in RC.
  rewrite T in RC. destruct (dget G x); [|discriminate]. apply ty_eqb_eq in RC. congruence.
Qed.

Lemma fargs_start l args vs : Forall2 formal_obj l args -> Forall2 input l vs -> NoDup (map fst l) ->
  forall r, (forall x v, bind_args (map fst l) vs x = Some v -> r x = Some v) -> mapO (eval I r) (map o_src args) = Some vs.
Proof.
  intros FA. revert vs. induction FA as [|[x mt] a l args (t & T & ->) _ IH]; intros vs IN ND r B; inversion IN as [|? v ? vs' _ IN']; subst; auto.
  cbn [map fst] in *. inversion ND as [|? ? NI ND']; subst. cbn [mapO var_obj o_src mkVar eval].
  rewrite (B x v) by (cbn; now rewrite String.eqb_refl). rewrite (IH vs' IN' ND'); auto.
  intros y w H. apply B. cbn. destruct (x =? y) eqn:E; auto. apply String.eqb_eq in E. subst. exfalso. apply NI.
  apply bind_args_spec in H; auto. destruct H as (mt' & IN2 & _). apply in_map_iff. exists (y, mt'). auto.
Qed.

Theorem func_sound vc vs v :
  NoDup (map fst (f_formals f)) -> supported G uninterp types f = true ->
  func_vc uninterp types f = Ok vc -> holds I G vc ->
  Forall2 input (f_formals f) vs -> returns U true f vs v ->
  i_call I (f_name f ++ "_ps") (vs ++ [v]) = Some (VBool true).
Proof.
  intros ND SP FV HO IN [LEN (n & R)].
  unfold supported in SP. apply andb_true_iff in SP as [SP FL]. apply andb_true_iff in SP as [SP KP].
  apply andb_true_iff in SP as [SP OK]. apply andb_true_iff in SP as [SP RF]. apply andb_true_iff in SP as [SI RT].
  unfold func_vc in FV. ok FV d Ed. unfold analyze in Ed. ok Ed args Ea. ok Ed rs Er. injection Ed as <-.
  unfold call_func in Er. ok Er gs Eg. ok Er rt Ert. ok Er ps Eps. injection Er as <-. cbn [fst snd] in FV.
  unfold driver_vc in FV. cbn [d_asserts new_driver] in FV. change ([] ++ asserts (snd gs)) with (asserts (snd gs)) in FV.
  unfold visit_func_def in Eg. ok Eg rt' Ert'. destruct (negb _); [discriminate|]. ok Eg s0 Es0.
  pose proof (param_objs_spec _ Ea) as FO.
  destruct (bind_formals_spec _ _ FO RF _ _ Es0) as (P0 & A0 & H0 & N0 & X0 & Y0).
  cbn [precond new_state new_driver d_post app vars asserts has_returned] in P0, A0, H0, N0, X0, Y0.
  destruct gs as [g' s']. cbn [snd] in FV. unfold vblock in Eg.
  set (params := map fst (f_formals f)) in *.
  assert (FG : forall S, incl params S -> Forall (good S) (map o_src args)).
  { intros S SUB. assert (FP : Forall (fun a => exists x t, In x params /\ a = var_obj t x) args).
    { unfold params. clear - FO. induction FO as [|[x mt] a l args (t & _ & ->) _ IH]; constructor.
      - exists x, t. cbn. auto.
      - eapply Forall_impl; [|exact IH]. intros a (y & u & INy & ->). exists y, u. cbn. auto. }
    clear - FP SUB. induction FP as [|a l (x & t & INx & ->) _ IH]; cbn [map]; constructor; auto.
    split; [reflexivity|]. cbn. intros y [<-|[]]. auto. }
  pose (r := start_env params vs).
  assert (F : fits G r).
  { intros x t T. unfold r, start_env. destruct (bind_args params vs x) as [w|] eqn:B.
    - destruct (bind_args_spec _ _ IN x w B) as (mt & INm & u & Tu & Tw). cbn [snd] in Tu.
      pose proof (recorded_in _ _ _ _ RF INm Tu). exists w. split; auto. congruence.
    - rewrite T. eexists. split; [reflexivity|]. apply some_val_ok. eapply g_simple; eauto. }
  assert (ST : Static I G params r (vars s0)).
  { split; [apply N0; constructor|]. intros x o D. destruct (in_dec string_dec x params) as [INx|NI].
    - destruct (X0 x INx) as (t & T & E). rewrite D in E. injection E as ->. cbn [var_obj o_ty o_src]. split; auto. split.
      { split; [reflexivity|]. cbn. intros y [<-|[]]. auto. }
      split; [intros u y _ H; cbn in H; congruence|]. destruct (F x t T) as (w & E & Tv). exists w. split; auto.
    - rewrite (Y0 x NI) in D. discriminate. }
  assert (PC : Forall (good params) (precond s0)) by (rewrite P0; constructor).
  destruct (body_static I U G uninterp LIB UNI SI (f_name f) args types params RT FG (f_body f) false params r _ _ _ _ Eg OK KP FL (incl_refl _) ST PC F) as (PL & _).
  rewrite A0 in PL. specialize (PL (Forall_nil _)).
  apply (body_sound I U G uninterp LIB UNI SI (f_name f) args types params RT FG vs (f_body f) false params r _ _ _ _ n
           (bind_args params vs) v Eg OK KP (fun _ => A0) FL (incl_refl _) ST PC F); auto.
  - unfold pspred, postcondition. cbn [g_post add_var_object d_glob new_driver dget fst dset].
    eexists. rewrite String.eqb_refl. split; reflexivity.
  - apply (fargs_start _ _ _ FO IN ND). intros x w B. unfold r, start_env. fold params in B. now rewrite B.
  - rewrite P0. constructor.
  - intros x w B. destruct (bind_args_spec _ _ IN x w B) as (mt & INm & _).
    assert (INx : In x params) by (apply in_map_iff; exists (x, mt); auto).
    destruct (X0 x INx) as (t & T & E). eexists. split; [exact E|]. cbn. unfold r, start_env. now rewrite B.
  - intros r1 F1. eapply and_conj; eauto.
Qed.
End Func.
