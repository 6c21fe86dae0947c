(** Proofs for C56: the body of the selecting function. *)

From Coq Require Import String Ascii List ZArith Bool Lia.
From Verif Require Import Ast Semantics Dict SmtPrint PyGram PyParse PyMean RktModel LibSem NpModel NpSem NpProofs NpProofs2 NpProofs3 NpProofs4 AlModel AlSem AlProofs.
Import ListNotations.
Local Open Scope string_scope.
Local Open Scope list_scope.

Section Values.
  Variables (Lb : lib) (W : Z -> Z) (lo hi : Z) (fns : list (string * expr)) (d : dtype).
  Hypothesis Wok : forall z, (lo <= z <= hi)%Z -> W z = z.
  Hypothesis Dint : is_float d = false.

  Lemma larg_plain fl E p v : lvalue Lb W fl E p = Some v ->
    match p with PKw k b => option_map (pair (Some k)) (lvalue Lb W fl E b) | _ => option_map (pair None) (lvalue Lb W fl E p) end = Some (None, v).
  Proof. intros H. destruct p; try (rewrite H; reflexivity). discriminate H. Qed.
  Lemma largs_plain fl E ps vs : Forall2 (fun p v => lvalue Lb W fl E p = Some v) ps vs ->
    mapO (fun a => match a with PKw k b => option_map (pair (Some k)) (lvalue Lb W fl E b) | _ => option_map (pair None) (lvalue Lb W fl E a) end) ps = Some (map (pair None) vs).
  Proof. intros F. induction F as [|p v ps vs H F IH]; [reflexivity|]. cbn [mapO map]. rewrite (larg_plain fl E p v H). rewrite IH. reflexivity. Qed.
  Lemma lcall_value fl E g ps vs : Forall2 (fun p v => lvalue Lb W fl E p = Some v) ps vs ->
    lvalue Lb W fl E (PCall (lfn Lb g) ps) = lcall Lb W fl g (map (pair None) vs).
  Proof.
    intros F. cbn [lvalue]. rewrite (largs_plain fl E ps vs F). unfold lfn. cbn [is_module]. rewrite String.eqb_refl. reflexivity.
  Qed.

  Section Part.
    Variables (p q : string) (lm ln : nat) (m n : expr) (pm pn : pexp) (mm mn : bool).
    Hypothesis Npq : p <> q.
    Let vs := dset (dset [] p m) q n.
    Hypothesis Tm : ltxt Lb fns d vs m (TMatrix TInt) lm pm mm.
    Hypothesis Tn : ltxt Lb fns d vs n (TMatrix TInt) ln pn mn.
    Lemma vs_is : vs = [(p, m); (q, n)].
    Proof. unfold vs. cbn [dset]. rewrite (proj2 (String.eqb_neq q p) (fun X => Npq (eq_sym X))). reflexivity. Qed.
    Lemma get_p : dget vs p = Some m.
    Proof. rewrite vs_is. cbn [dget]. rewrite String.eqb_refl. reflexivity. Qed.
    Lemma get_q : dget vs q = Some n.
    Proof. rewrite vs_is. cbn [dget]. rewrite (proj2 (String.eqb_neq q p) (fun X => Npq (eq_sym X))), String.eqb_refl. reflexivity. Qed.
    Notation AP := (arith_part p q (TMatrix TInt) lm (TMatrix TInt) ln).
    Notation BP := (bool_part p q (TMatrix TInt) lm (TMatrix TInt) ln).
    Lemma arith_ty e t l : AP e t l -> t = TInt \/ t = TMatrix TInt.
    Proof. induction 1; auto. destruct IHarith_part1; subst; auto. Qed.
    Lemma arith_join e t l f u k : AP e t l -> AP f u k -> prim (join_ty t u) = prim t && prim u.
    Proof. intros A B. destruct (arith_ty _ _ _ A), (arith_ty _ _ _ B); subst; reflexivity. Qed.
    Lemma bool_ty e t l : BP e t l -> t = TBool \/ t = TList TBool.
    Proof. induction 1; auto; destruct (prim te && prim tf); auto. Qed.
    Lemma arith_uses e t l : AP e t l -> (exists x, In x (var_names e)) -> prim t = false.
    Proof.
      induction 1 as [t|t|z|k l t e f te lf tf le K A IHA B IHB]; intros [x X]; try reflexivity; [contradiction X|].
      assert (Y : In x (var_names e ++ var_names f)) by (destruct k; try discriminate K; cbn [var_names flat_map] in X; rewrite app_nil_r in X; exact X).
      rewrite (arith_join _ _ _ _ _ _ A B). apply in_app_or in Y. destruct Y as [Y|Y]; [rewrite IHA by eauto; reflexivity|rewrite IHB by eauto; apply andb_false_r].
    Qed.
    Lemma bool_uses e t l : BP e t l -> (exists x, In x (var_names e)) -> prim t = false.
    Proof.
      induction 1 as [b|k t e f le lf K A B L1 L2|k t e f te le tf lf K A B N|t e f te le tf lf A IHA B IHB|t e f te le tf lf A IHA B IHB|t e te le A IHA P L|t e te le A IHA P]; intros [x X].
      - contradiction X.
      - assert (Y : In x (var_names e ++ var_names f)) by (destruct k; try discriminate K; cbn [var_names flat_map] in X; rewrite app_nil_r in X; exact X).
        apply in_app_or in Y. destruct Y as [Y|Y]; [pose proof (arith_uses _ _ _ A ltac:(eauto)) as C|pose proof (arith_uses _ _ _ B ltac:(eauto)) as C]; discriminate C.
      - reflexivity.
      - cbn [var_names flat_map] in X. rewrite app_nil_r in X. apply in_app_or in X. destruct X as [X|X]; [rewrite IHA by eauto; reflexivity|rewrite IHB by eauto; rewrite andb_false_r; reflexivity].
      - cbn [var_names flat_map] in X. rewrite app_nil_r in X. apply in_app_or in X. destruct X as [X|X]; [rewrite IHA by eauto; reflexivity|rewrite IHB by eauto; rewrite andb_false_r; reflexivity].
      - cbn [var_names flat_map] in X. rewrite app_nil_r in X. rewrite IHA in P by eauto. discriminate P.
      - reflexivity.
    Qed.

    (** what the parts have for values, for all pairs of elements *)
    Section Ctx.
    Variables (I : interp) (fl : bool) (E : string -> option nval) (M N : list (list Z)).
    Definition elt_of (v : option val) : elt := match v with Some (VInt z) => EI z | Some (VBool b) => EB b | _ => EI 0 end.
    Definition on (e : expr) (pr : Z * Z) : elt := elt_of (eval I (bind2 p q (fst pr) (snd pr)) e).
    Definition prs : list (list (Z * Z)) := map (fun x => combine (fst x) (snd x)) (combine M N).
    Definition ctx : Prop :=
      tensor_like fns I /\ lvalue Lb W fl E pm = Some (NA (AM (map (map EI) M))) /\ lvalue Lb W fl E pn = Some (NA (AM (map (map EI) N))) /\
      same_dim M N = true /\ exists pr, In pr (concat prs).
    Definition good_at (e : expr) (t : ty) (P : pexp) : Prop :=
      ctx -> (forall pr, In pr (concat prs) -> fits lo hi I (fun _ _ => False) (bind2 p q (fst pr) (snd pr)) e) ->
      exists R, lvalue Lb W fl E P = Some (NA R) /\ stands prs R (on e) /\ isM R = negb (prim t).
    Lemma bind_p x y : bind2 p q x y p = Some (VInt x).
    Proof. unfold bind2, upd. destruct (String.eqb q p) eqn:X; [apply String.eqb_eq in X; congruence|]. rewrite String.eqb_refl. reflexivity. Qed.
    Lemma bind_q x y : bind2 p q x y q = Some (VInt y).
    Proof. unfold bind2, upd. rewrite String.eqb_refl. reflexivity. Qed.
    Lemma grid_l : same_dim M N = true -> map (map EI) M = map (map (fun pr => EI (fst pr))) prs.
    Proof.
      intros S. pose proof (fun a b => same_rows M N a b S) as R. apply same_dim_inv in S. destruct S as [_ [_ [L _]]]. unfold prs.
      revert N L R. induction M as [|a M' IH]; intros [|b N'] L R; try discriminate L; [reflexivity|]. cbn [combine map fst snd]. f_equal.
      - specialize (R a b (or_introl eq_refl)). clear - R. revert b R. induction a as [|x a IH]; intros [|y b] R; try discriminate R; [reflexivity|]. cbn [combine map fst]. f_equal. apply IH. injection R as R. exact R.
      - apply IH; [injection L as L; exact L|]. intros a' b' X. apply R. right. exact X.
    Qed.
    Lemma grid_r : same_dim M N = true -> map (map EI) N = map (map (fun pr => EI (snd pr))) prs.
    Proof.
      intros S. pose proof (fun a b => same_rows M N a b S) as R. apply same_dim_inv in S. destruct S as [_ [_ [L _]]]. unfold prs.
      revert N L R. induction M as [|a M' IH]; intros [|b N'] L R; try discriminate L; [reflexivity|]. cbn [combine map fst snd]. f_equal.
      - specialize (R a b (or_introl eq_refl)). clear - R. revert b R. induction a as [|x a IH]; intros [|y b] R; try discriminate R; [reflexivity|]. cbn [combine map snd]. f_equal. apply IH. injection R as R. exact R.
      - apply IH; [injection L as L; exact L|]. intros a' b' X. apply R. right. exact X.
    Qed.
    Lemma grid_ext (g h : Z * Z -> elt) ps : (forall pr, In pr (concat ps) -> g pr = h pr) -> map (map g) ps = map (map h) ps.
    Proof.
      intros H. induction ps as [|a l IH]; [reflexivity|]. cbn [map]. f_equal; [|apply IH; intros pr X; apply H; cbn; apply in_or_app; auto].
      apply map_ext_in. intros pr X. apply H. cbn. apply in_or_app. auto.
    Qed.

    End Ctx.
    Definition good (e : expr) (t : ty) (P : pexp) : Prop := forall I fl E M N, good_at I fl E M N e t P.

    Lemma arith_good e t l : AP e t l -> exists P m, ltxt Lb fns d vs e t l P m /\ good e t P.
    Proof.
      induction 1 as [t|t|z|k l t e f te lf tf le K A IHA B IHB].
      - exists pm, mm. split; [apply (ltxt_repl Lb fns d vs p t m); [exact get_p|exact Tm]|]. intros I fl E M N [_ [Vm [_ [S _]]]] _. exists (AM (map (map EI) M)). split; [exact Vm|split; [|reflexivity]].
        cbn [stands]. rewrite (grid_l M N S). apply grid_ext. intros pr _. unfold on, var. cbn [eval]. rewrite bind_p. reflexivity.
      - exists pn, mn. split; [apply (ltxt_repl Lb fns d vs q t n); [exact get_q|exact Tn]|]. intros I fl E M N [_ [_ [Vn [S _]]]] _. exists (AM (map (map EI) N)). split; [exact Vn|split; [|reflexivity]].
        cbn [stands]. rewrite (grid_r M N S). apply grid_ext. intros pr _. unfold on, var. cbn [eval]. rewrite bind_q. reflexivity.
      - exists (num_exp z), false. split; [apply ltxt_lit|]. intros I fl E M N _ _. exists (AS (EI z)). split; [|split; [intros pr _; reflexivity|reflexivity]].
        unfold num_exp. destruct (z <? 0)%Z; [|reflexivity]. cbn [lvalue]. rewrite Z.opp_involutive. reflexivity.
      - destruct IHA as [P1 [f1 [T1 G1]]]. destruct IHB as [P2 [f2 [T2 G2]]]. eexists (PBin (bin_of k) P1 P2), _. split; [apply ltxt_arith with (le := le) (lf := lf); eassumption|].
        intros I fl E M N C Fi. pose proof C as [TL [_ [_ [_ So]]]].
        assert (Q : forall pr, In pr (concat (prs M N)) -> fits lo hi I (fun _ _ => False) (bind2 p q (fst pr) (snd pr)) e /\ fits lo hi I (fun _ _ => False) (bind2 p q (fst pr) (snd pr)) f /\
          eop W (bin_of k) (on I e pr) (on I f pr) = Some (on I (Node k t [e; f]) pr) /\ ((bin_of k = OFloor \/ bin_of k = OMod) -> on I f pr <> EI 0)).
        { intros pr Pr. destruct (fits_arith W lo hi fns Wok I _ TL _ k l t e f K (Fi pr Pr)) as [F1 [F2 [a [b [c [E1 [E2 [E3 [E4 E5]]]]]]]]].
          split; [exact F1|split; [exact F2|]]. unfold on. rewrite E1, E2, E3. cbn [elt_of]. split; [exact E4|]. intros X Y. injection Y as ->. specialize (E5 X). lia. }
        destruct (G1 I fl E M N C (fun pr Pr => proj1 (Q pr Pr))) as [R1 [V1 [S1 M1]]]. destruct (G2 I fl E M N C (fun pr Pr => proj1 (proj2 (Q pr Pr)))) as [R2 [V2 [S2 M2]]].
        destruct (spread (prs M N) So (eop W (bin_of k)) R1 R2 (on I e) (on I f) (on I (Node k t [e; f])) S1 S2 (fun pr Pr => proj1 (proj2 (proj2 (Q pr Pr))))) as [R [B1 [B2 B3]]].
        exists R. split; [|split; [exact B2|rewrite B3, M1, M2, (arith_join _ _ _ _ _ _ A B); destruct (prim te), (prim tf); reflexivity]].
        cbn [lvalue]. rewrite V1, V2. destruct So as [p0 P0]. destruct (Q p0 P0) as [_ [_ [_ Z0]]].
        assert (Nz : (bin_of k = OFloor \/ bin_of k = OMod) -> R2 <> AS (EI 0)) by (intros X Y; subst R2; apply (Z0 X); exact (S2 p0 P0)).
        assert (X : nbin W (bin_of k) R1 R2 = option_map NA (broadcast (eop W (bin_of k)) R1 R2)).
        { clear - Nz. destruct (bin_of k); try reflexivity; destruct R1; try reflexivity; (destruct R2 as [[[| |]|]| |]; try reflexivity); exfalso; apply Nz; auto. }
        rewrite X, B1. reflexivity.
    Qed.
    (** the branches are integers *)
    Lemma arith_int e t l : AP e t l -> forall I x y, exists z, eval I (bind2 p q x y) e = option_map VInt z.
    Proof.
      induction 1 as [t|t|z|k l t e f te lf tf le K A IHA B IHB]; intros I x y.
      - exists (Some x). apply bind_p.
      - exists (Some y). apply bind_q.
      - exists (Some z). reflexivity.
      - destruct (IHA I x y) as [a Ha]. destruct (IHB I x y) as [b Hb].
        assert (X : eval I (bind2 p q x y) (Node k t [e; f]) = match mapO (eval I (bind2 p q x y)) [e; f] with Some vs => op_val I k vs | None => None end) by (destruct k; try discriminate K; reflexivity).
        rewrite X. cbn [mapO]. rewrite Ha, Hb. destruct a as [a|]; [|exists None; reflexivity]. destruct b as [b|]; [|exists None; reflexivity]. cbn [option_map].
        destruct k; try discriminate K; cbn; try (eexists (Some _); reflexivity); eexists; reflexivity.
    Qed.

    Lemma bool_on I e t l : BP e t l -> forall pr, fits lo hi I (fun _ _ => False) (bind2 p q (fst pr) (snd pr)) e -> exists b, eval I (bind2 p q (fst pr) (snd pr)) e = Some (VBool b).
    Proof.
      intros A pr Fi. destruct A as [b|k t e f le lf K A B L1 L2|k t e f te le tf lf K A B N0|t e f te le tf lf A B|t e f te le tf lf A B|t e te le A P L|t e te le A P].
      - exists b. reflexivity.
      - destruct (fits_cmp lo hi I _ _ k t e f K Fi) as [_ [_ [a [b [v [_ [_ [X _]]]]]]]]. eauto.
      - destruct (fits_cmp lo hi I _ _ k t e f K Fi) as [_ [_ [a [b [v [_ [_ [X _]]]]]]]]. eauto.
      - destruct (fits_logic lo hi I _ _ KAnd t e f (or_introl eq_refl) Fi) as [_ [_ [a [b [_ [_ X]]]]]]. eauto.
      - destruct (fits_logic lo hi I _ _ KOr t e f (or_intror eq_refl) Fi) as [_ [_ [a [b [_ [_ X]]]]]]. eauto.
      - destruct (fits_not lo hi I _ _ t e Fi) as [_ [a [_ X]]]. eauto.
      - destruct (fits_not lo hi I _ _ t e Fi) as [_ [a [_ X]]]. eauto.
    Qed.
    Lemma const_of {A} M N (R : arr A) g : stands (prs M N) R g -> isM R = false -> exists v, R = AS v.
    Proof. destruct R; intros S X; [eauto|contradiction S|discriminate X]. Qed.
    Lemma arith_closed e t l : AP e t l -> var_names e = [] -> t = TInt.
    Proof.
      induction 1 as [t|t|z|k l t e f te lf tf le K A IHA B IHB]; intros V; try discriminate V; [reflexivity|].
      assert (Y : var_names e ++ var_names f = []) by (destruct k; try discriminate K; cbn [var_names flat_map] in V; rewrite app_nil_r in V; exact V).
      apply app_eq_nil in Y. destruct Y as [Y1 Y2]. rewrite (IHA Y1), (IHB Y2). reflexivity.
    Qed.
    Lemma bool_closed e t l : BP e t l -> var_names e = [] -> prim t = true.
    Proof.
      induction 1 as [b|k t e f le lf K A B L1 L2|k t e f te le tf lf K A B N0|t e f te le tf lf A IHA B IHB|t e f te le tf lf A IHA B IHB|t e te le A IHA P L|t e te le A IHA P]; intros V; try reflexivity.
      - assert (Y : var_names e ++ var_names f = []) by (destruct k; try discriminate K; cbn [var_names flat_map] in V; rewrite app_nil_r in V; exact V).
        apply app_eq_nil in Y. destruct Y as [Y1 Y2]. pose proof (arith_closed _ _ _ A Y1). pose proof (arith_closed _ _ _ B Y2). destruct N0; congruence.
      - cbn [var_names flat_map] in V. rewrite app_nil_r in V. apply app_eq_nil in V. rewrite (IHA (proj1 V)), (IHB (proj2 V)). reflexivity.
      - cbn [var_names flat_map] in V. rewrite app_nil_r in V. apply app_eq_nil in V. rewrite (IHA (proj1 V)), (IHB (proj2 V)). reflexivity.
      - cbn [var_names flat_map] in V. rewrite app_nil_r in V. rewrite (IHA V) in P. discriminate P.
    Qed.
    Lemma uses_in e : uses e = true -> exists x, In x (var_names e).
    Proof. unfold uses. destruct (var_names e) as [|x l]; [discriminate|]. intros _. exists x. left. reflexivity. Qed.
    Lemma uses_none e : uses e = false -> var_names e = [].
    Proof. unfold uses. destruct (var_names e); [reflexivity|discriminate]. Qed.
    Definition conds (e : expr) : Prop := Lb = TORCH -> torch_cond e = true.
    Lemma array_axis {A} (R : arr A) : isM R = true -> match R with AS _ => true | _ => false end = false.
    Proof. destruct R; [discriminate|reflexivity|reflexivity]. Qed.
    Lemma cmps_first k t e f te le tf lf (R1 : arr elt) : is_cmp k = true -> AP e te le -> AP f tf lf -> te <> TInt \/ tf <> TInt -> conds (Node k t [e; f]) ->
      isM R1 = negb (prim te) -> Lb = TORCH -> isM R1 = true.
    Proof.
      intros K A B N0 C M1 T. specialize (C T). rewrite M1. assert (C' : uses e || negb (uses f) = true) by (destruct k; try discriminate K; exact C).
      destruct (uses e) eqn:U; [rewrite (arith_uses _ _ _ A (uses_in _ U)); reflexivity|]. cbn [orb] in C'. destruct (uses f) eqn:U2; [discriminate C'|].
      pose proof (arith_closed _ _ _ A (uses_none _ U)). pose proof (arith_closed _ _ _ B (uses_none _ U2)). destruct N0; congruence.
    Qed.
    Lemma logic_both k t e f te le tf lf : k = KAnd \/ k = KOr -> BP e te le -> BP f tf lf -> prim te && prim tf = false -> conds (Node k t [e; f]) -> Lb = TORCH ->
      prim te = false /\ prim tf = false.
    Proof.
      intros K A B Pp C T. specialize (C T). assert (C' : Bool.eqb (uses e) (uses f) && torch_cond e && torch_cond f = true) by (destruct K; subst k; exact C).
      apply andb_true_iff in C'. destruct C' as [C' _]. apply andb_true_iff in C'. destruct C' as [C' _]. apply Bool.eqb_prop in C'.
      destruct (uses e) eqn:U.
      - symmetry in C'. split; [apply (bool_uses _ _ _ A (uses_in _ U))|apply (bool_uses _ _ _ B (uses_in _ C'))].
      - symmetry in C'. rewrite (bool_closed _ _ _ A (uses_none _ U)), (bool_closed _ _ _ B (uses_none _ C')) in Pp. discriminate Pp.
    Qed.
    Lemma conds_logic k t e f : k = KAnd \/ k = KOr -> conds (Node k t [e; f]) -> conds e /\ conds f.
    Proof.
      intros K C. split; intros T; specialize (C T); assert (C' : Bool.eqb (uses e) (uses f) && torch_cond e && torch_cond f = true) by (destruct K; subst k; exact C);
        apply andb_true_iff in C'; destruct C' as [C1 C2]; [apply andb_true_iff in C1; apply C1|exact C2].
    Qed.
    Lemma bool_good e t l : BP e t l -> conds e -> exists P m, ltxt Lb fns d vs e t l P m /\ good e t P.
    Proof.
      induction 1 as [b|k t e f le lf K A B L1 L2|k t e f te le tf lf K A B N0|t e f te le tf lf A IHA B IHB|t e f te le tf lf A IHA B IHB|t e te le A IHA P L|t e te le A IHA P]; intros CN.
      - exists (PBoolE b), false. split; [apply ltxt_blit|]. intros I fl E M N _ _. exists (AS (EB b)). split; [reflexivity|split; [intros pr _; reflexivity|reflexivity]].
      - destruct (arith_good _ _ _ A) as [P1 [f1 [T1 G1]]]. destruct (arith_good _ _ _ B) as [P2 [f2 [T2 G2]]]. eexists (PCmp P1 [(cmp_of_kind k, P2)]), _.
        split; [apply ltxt_cmp with (le := le) (lf := lf); eassumption|]. intros I fl E M N C Fi. pose proof C as [TL [_ [_ [_ So]]]].
        pose proof (fun pr Pr => fits_cmp lo hi I _ _ k t e f K (Fi pr Pr)) as Q.
        destruct (G1 I fl E M N C (fun pr Pr => proj1 (Q pr Pr))) as [R1 [V1 [S1 M1]]]. destruct (G2 I fl E M N C (fun pr Pr => proj1 (proj2 (Q pr Pr)))) as [R2 [V2 [S2 M2]]].
        destruct (spread (prs M N) So (ecmp (cmp_of_kind k)) R1 R2 (on I e) (on I f) (on I (Node k t [e; f])) S1 S2) as [R [B1 [B2 B3]]].
        { intros pr Pr. destruct (Q pr Pr) as [_ [_ [a [b [v [E1 [E2 [E3 E4]]]]]]]]. unfold on. rewrite E1, E2, E3. exact E4. }
        exists R. split; [|split; [exact B2|rewrite B3, M1, M2; reflexivity]]. cbn [lvalue]. rewrite V1, V2, B1. reflexivity.
      - destruct (arith_good _ _ _ A) as [P1 [f1 [T1 G1]]]. destruct (arith_good _ _ _ B) as [P2 [f2 [T2 G2]]]. eexists (PCall (lfn Lb (l_cmp Lb k)) [P1; P2]), _.
        split; [apply ltxt_cmps with (te := te) (le := le) (tf := tf) (lf := lf); eassumption|]. intros I fl E M N C Fi. pose proof C as [TL [_ [_ [_ So]]]].
        pose proof (fun pr Pr => fits_cmp lo hi I _ _ k t e f K (Fi pr Pr)) as Q.
        destruct (G1 I fl E M N C (fun pr Pr => proj1 (Q pr Pr))) as [R1 [V1 [S1 M1]]]. destruct (G2 I fl E M N C (fun pr Pr => proj1 (proj2 (Q pr Pr)))) as [R2 [V2 [S2 M2]]].
        destruct (spread (prs M N) So (ecmp (cmp_of_kind k)) R1 R2 (on I e) (on I f) (on I (Node k t [e; f])) S1 S2) as [R [B1 [B2 B3]]].
        { intros pr Pr. destruct (Q pr Pr) as [_ [_ [a [b [v [E1 [E2 [E3 E4]]]]]]]]. unfold on. rewrite E1, E2, E3. exact E4. }
        exists R. split; [|split; [exact B2|]].
        + rewrite (lcall_value fl E (l_cmp Lb k) [P1; P2] [NA R1; NA R2]) by (repeat constructor; assumption).
          assert (U : lcall Lb W fl (l_cmp Lb k) [(None, NA R1); (None, NA R2)] = option_map NA (broadcast (ecmp (cmp_of_kind k)) R1 R2)).
          { pose proof (cmps_first k t e f te le tf lf R1 K A B N0 CN M1) as Fst. clear - K Fst. unfold lcall.
            assert (Rf : refused Lb fl (l_cmp Lb k) [(None, NA R1); (None, NA R2)] = false).
            { destruct Lb; [destruct k; try discriminate K; reflexivity|reflexivity|]. specialize (Fst eq_refl). destruct R1; try discriminate Fst; destruct k; try discriminate K; reflexivity. }
            rewrite Rf. destruct Lb, k; try discriminate K; reflexivity. }
          cbn [map]. rewrite U, B1. reflexivity.
        + rewrite B3, M1, M2. destruct (arith_ty _ _ _ A), (arith_ty _ _ _ B); subst; try reflexivity. exfalso. destruct N0; congruence.
      - destruct (conds_logic KAnd t e f (or_introl eq_refl) CN) as [CN1 CN2]. specialize (IHA CN1). specialize (IHB CN2). destruct IHA as [P1 [f1 [T1 G1]]]. destruct IHB as [P2 [f2 [T2 G2]]]. eexists _, _. split; [apply ltxt_and with (le := le) (lf := lf); eassumption|].
        intros I fl E M N C Fi. pose proof C as [TL [_ [_ [_ So]]]].
        pose proof (fun pr Pr => fits_logic lo hi I _ _ KAnd t e f (or_introl eq_refl) (Fi pr Pr)) as Q.
        destruct (G1 I fl E M N C (fun pr Pr => proj1 (Q pr Pr))) as [R1 [V1 [S1 M1]]]. destruct (G2 I fl E M N C (fun pr Pr => proj1 (proj2 (Q pr Pr)))) as [R2 [V2 [S2 M2]]].
        destruct (spread (prs M N) So (elogic andb) R1 R2 (on I e) (on I f) (on I (Node KAnd t [e; f])) S1 S2) as [R [B1 [B2 B3]]].
        { intros pr Pr. destruct (Q pr Pr) as [_ [_ [a [b [E1 [E2 E3]]]]]]. unfold on. rewrite E1, E2, E3. reflexivity. }
        destruct (prim te && prim tf) eqn:Pp.
        + apply andb_true_iff in Pp. destruct Pp as [Pe Pf]. rewrite Pe in M1. rewrite Pf in M2.
          destruct (const_of M N R1 _ S1 M1) as [v1 ->]. destruct (const_of M N R2 _ S2 M2) as [v2 ->]. destruct So as [p0 P0].
          destruct (Q p0 P0) as [_ [_ [a [b [E1 [E2 E3]]]]]]. pose proof (S1 p0 P0) as Y1. pose proof (S2 p0 P0) as Y2. unfold on in Y1, Y2. rewrite E1 in Y1. rewrite E2 in Y2. cbn in Y1, Y2. subst v1 v2.
          exists R. split; [|split; [exact B2|rewrite B3; reflexivity]]. cbn [lvalue]. rewrite V1. cbn [ntrue etrue]. cbn [broadcast elogic etrue option_map] in B1. injection B1 as <-.
          destruct a; [exact V2|reflexivity].
        + exists R. split; [|split; [exact B2|rewrite B3, M1, M2; destruct (prim te), (prim tf); try reflexivity; discriminate Pp]].
          rewrite (lcall_value fl E "logical_and" [P1; P2] [NA R1; NA R2]) by (repeat constructor; assumption). cbn [map].
          assert (U : lcall Lb W fl "logical_and" [(None, NA R1); (None, NA R2)] = option_map NA (broadcast (elogic andb) R1 R2)).
          { pose proof (logic_both KAnd t e f te le tf lf (or_introl eq_refl) A B Pp CN) as Both. clear - M1 M2 Both. unfold lcall.
            assert (Rf : refused Lb fl "logical_and" [(None, NA R1); (None, NA R2)] = false).
            { destruct Lb; [reflexivity|reflexivity|]. destruct (Both eq_refl) as [Y1 Y2]. rewrite Y1 in M1. rewrite Y2 in M2. destruct R1; try discriminate M1; destruct R2; try discriminate M2; reflexivity. }
            rewrite Rf. destruct Lb; reflexivity. }
          rewrite U, B1. reflexivity.
      - destruct (conds_logic KOr t e f (or_intror eq_refl) CN) as [CN1 CN2]. specialize (IHA CN1). specialize (IHB CN2). destruct IHA as [P1 [f1 [T1 G1]]]. destruct IHB as [P2 [f2 [T2 G2]]]. eexists _, _. split; [apply ltxt_or with (le := le) (lf := lf); eassumption|].
        intros I fl E M N C Fi. pose proof C as [TL [_ [_ [_ So]]]].
        pose proof (fun pr Pr => fits_logic lo hi I _ _ KOr t e f (or_intror eq_refl) (Fi pr Pr)) as Q.
        destruct (G1 I fl E M N C (fun pr Pr => proj1 (Q pr Pr))) as [R1 [V1 [S1 M1]]]. destruct (G2 I fl E M N C (fun pr Pr => proj1 (proj2 (Q pr Pr)))) as [R2 [V2 [S2 M2]]].
        destruct (spread (prs M N) So (elogic orb) R1 R2 (on I e) (on I f) (on I (Node KOr t [e; f])) S1 S2) as [R [B1 [B2 B3]]].
        { intros pr Pr. destruct (Q pr Pr) as [_ [_ [a [b [E1 [E2 E3]]]]]]. unfold on. rewrite E1, E2, E3. reflexivity. }
        destruct (prim te && prim tf) eqn:Pp.
        + apply andb_true_iff in Pp. destruct Pp as [Pe Pf]. rewrite Pe in M1. rewrite Pf in M2.
          destruct (const_of M N R1 _ S1 M1) as [v1 ->]. destruct (const_of M N R2 _ S2 M2) as [v2 ->]. destruct So as [p0 P0].
          destruct (Q p0 P0) as [_ [_ [a [b [E1 [E2 E3]]]]]]. pose proof (S1 p0 P0) as Y1. pose proof (S2 p0 P0) as Y2. unfold on in Y1, Y2. rewrite E1 in Y1. rewrite E2 in Y2. cbn in Y1, Y2. subst v1 v2.
          exists R. split; [|split; [exact B2|rewrite B3; reflexivity]]. cbn [lvalue]. rewrite V1. cbn [ntrue etrue]. cbn [broadcast elogic etrue option_map] in B1. injection B1 as <-.
          destruct a; [reflexivity|exact V2].
        + exists R. split; [|split; [exact B2|rewrite B3, M1, M2; destruct (prim te), (prim tf); try reflexivity; discriminate Pp]].
          rewrite (lcall_value fl E "logical_or" [P1; P2] [NA R1; NA R2]) by (repeat constructor; assumption). cbn [map].
          assert (U : lcall Lb W fl "logical_or" [(None, NA R1); (None, NA R2)] = option_map NA (broadcast (elogic orb) R1 R2)).
          { pose proof (logic_both KOr t e f te le tf lf (or_intror eq_refl) A B Pp CN) as Both. clear - M1 M2 Both. unfold lcall.
            assert (Rf : refused Lb fl "logical_or" [(None, NA R1); (None, NA R2)] = false).
            { destruct Lb; [reflexivity|reflexivity|]. destruct (Both eq_refl) as [Y1 Y2]. rewrite Y1 in M1. rewrite Y2 in M2. destruct R1; try discriminate M1; destruct R2; try discriminate M2; reflexivity. }
            rewrite Rf. destruct Lb; reflexivity. }
          rewrite U, B1. reflexivity.
      - specialize (IHA CN). destruct IHA as [P1 [f1 [T1 G1]]]. eexists (PNot P1), _. split; [apply ltxt_not with (te := te) (le := le); eassumption|].
        intros I fl E M N C Fi. pose proof C as [TL [_ [_ [_ So]]]]. pose proof (fun pr Pr => fits_not lo hi I _ _ t e (Fi pr Pr)) as Q.
        destruct (G1 I fl E M N C (fun pr Pr => proj1 (Q pr Pr))) as [R1 [V1 [S1 M1]]]. rewrite P in M1. destruct (const_of M N R1 _ S1 M1) as [v1 ->]. cbn [stands] in S1.
        exists (AS (EB (negb (etrue v1)))). split; [|split; [|reflexivity]].
        + cbn [lvalue]. rewrite V1. reflexivity.
        + intros pr Pr. destruct (Q pr Pr) as [_ [a [E1 E2]]]. specialize (S1 pr Pr). unfold on in *. rewrite E1 in S1. rewrite E2. cbn in S1. subst v1. reflexivity.
      - specialize (IHA CN). destruct IHA as [P1 [f1 [T1 G1]]]. eexists (PCall (lfn Lb "logical_not") [P1]), _. split; [apply ltxt_nots with (te := te) (le := le); eassumption|].
        intros I fl E M N C Fi. pose proof C as [TL [_ [_ [_ So]]]]. pose proof (fun pr Pr => fits_not lo hi I _ _ t e (Fi pr Pr)) as Q.
        destruct (G1 I fl E M N C (fun pr Pr => proj1 (Q pr Pr))) as [R1 [V1 [S1 M1]]].
        destruct (spread1 (prs M N) So (fun e => Some (EB (negb (etrue e)))) R1 (on I e) (on I (Node KNot t [e])) S1) as [R [B1 [B2 B3]]].
        { intros pr Pr. destruct (Q pr Pr) as [_ [a [E1 E2]]]. unfold on. rewrite E1, E2. reflexivity. }
        exists R. split; [|split; [exact B2|rewrite B3, M1, P; reflexivity]].
        rewrite (lcall_value fl E "logical_not" [P1] [NA R1]) by (repeat constructor; assumption). cbn [map].
        assert (U : lcall Lb W fl "logical_not" [(None, NA R1)] = option_map NA (emap (fun e => Some (EB (negb (etrue e)))) R1)).
        { clear - M1 P. rewrite P in M1. unfold lcall.
          assert (Rf : refused Lb fl "logical_not" [(None, NA R1)] = false) by (destruct R1; try discriminate M1; destruct Lb; reflexivity).
          rewrite Rf. destruct Lb; reflexivity. }
        rewrite U, B1. reflexivity.
    Qed.
  End Part.
End Values.
