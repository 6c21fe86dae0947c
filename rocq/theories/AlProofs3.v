(** Proofs for C56: the theorem. *)

From Coq Require Import String Ascii List ZArith Bool Lia.
From Verif Require Import Ast Semantics Dict SmtPrint PyGram PyParse PyMean RktModel LibSem NpModel NpSem NpProofs NpProofs2 NpProofs3 NpProofs4 NpProofs5 AlModel AlSem AlProofs AlProofs2.
Import ListNotations.
Local Open Scope string_scope.
Local Open Scope list_scope.

Lemma not_module Lb p : p <> PName (module Lb) -> is_module Lb p = false.
Proof. destruct p; try reflexivity. intros N. cbn [is_module]. apply String.eqb_neq. congruence. Qed.
Lemma lcall_kw Lb W fl E g p v k : lvalue Lb W fl E p = Some v ->
  lvalue Lb W fl E (PCall (lfn Lb g) [p; kw0 k]) = lcall Lb W fl g [(None, v); (Some k, NA (AS (EI 0)))].
Proof.
  intros H. cbn [lvalue mapO kw0 option_map]. rewrite (larg_plain Lb W fl E p v H). unfold lfn. cbn [is_module]. rewrite String.eqb_refl. reflexivity.
Qed.
Lemma list_value Lb W fl E p q v w : lvalue Lb W fl E p = Some v -> lvalue Lb W fl E q = Some w -> lvalue Lb W fl E (PList [(false, p); (false, q)]) = Some (NSeq [v; w]).
Proof.
  intros V1 V2. change (option_map NSeq (mapO (fun x : bool * pexp => if fst x then None else lvalue Lb W fl E (snd x)) [(false, p); (false, q)]) = Some (NSeq [v; w])).
  cbn [mapO fst snd]. rewrite V1, V2. reflexivity.
Qed.

Section Right.
  Variables (Lb : lib) (W : Z -> Z) (lo hi : Z) (fns : list (string * expr)) (d : dtype).
  Hypothesis Wok : forall z, (lo <= z <= hi)%Z -> W z = z.
  Hypothesis Dint : is_float d = false.

  Hypothesis Sel : select_ok Lb fns.

  (** what the text means when the elements of arrays are of the type that the generator chose *)
  Definition lsem (e : expr) (p : pexp) (m : bool) : Prop :=
    forall I r E fl, (m = true -> Lb = MLX -> fl = true) -> tensor_like fns I -> same_vars r E -> fits lo hi I (select_fits fns lo hi I) r e ->
    forall dv, proper dv -> eval I r e = Some (emb dv) -> lvalue Lb W fl E p = Some (NA (arr_of dv)).
  Definition lright (e : expr) (t : ty) (l : nat) : Prop :=
    exists p m, p <> PName (module Lb) /\ (forall vs, fresh e vs -> ltxt Lb fns d vs e t l p m) /\ lsem e p m.

  Ltac flag := let Q := fresh in let T := fresh in intros Q T; match goal with M : _ = true -> _ = MLX -> ?fl = true |- ?fl = true => apply M; [|exact T]; rewrite Q; repeat match goal with |- context[orb ?x _] => is_var x; destruct x; cbn [orb] end; reflexivity end.
  Lemma lright_var x t : py_name x = true -> x <> (module Lb) -> lright (var x t) t 8.
  Proof.
    intros Nx Nn. exists (PName x), false. split; [intros X; injection X as X; contradiction|]. split.
    - intros vs F. apply ltxt_var; [exact Nx|]. apply F. left. reflexivity.
    - intros I r E fl Mf _ S _ dv P V. exact (S x dv P V).
  Qed.
  Lemma lright_lit z : lright (lit z) TInt 7.
  Proof.
    exists (num_exp z), false. split; [unfold num_exp; destruct (z <? 0)%Z; discriminate|]. split; [intros vs _; apply ltxt_lit|].
    intros I r E fl Mf _ _ _ dv P V. assert (X := int_val _ z dv P eq_refl V). subst dv.
    unfold num_exp. destruct (z <? 0)%Z; [|reflexivity]. cbn [lvalue]. rewrite Z.opp_involutive. reflexivity.
  Qed.
  Lemma lright_blit b : lright (blit b) TBool 8.
  Proof.
    exists (PBoolE b), false. split; [discriminate|]. split; [intros vs _; apply ltxt_blit|].
    intros I r E fl Mf _ _ _ dv P V. assert (X := bool_val _ b dv P eq_refl V). subst dv. reflexivity.
  Qed.
  Lemma lright_arith k l t e f te le tf lf : arith_level k = Some l -> lright e te le -> lright f tf lf -> lright (Node k t [e; f]) (join_ty te tf) l.
  Proof.
    intros K [p [m1 [_ [T1 S1]]]] [q [m2 [_ [T2 S2]]]]. eexists (PBin (bin_of k) p q), _. split; [discriminate|]. split.
    - intros vs F. apply ltxt_arith with (le := le) (lf := lf); [exact Dint|exact K|apply T1|apply T2];
        (eapply fresh_arg; [exact (not_var k l K)| |exact F]); cbn; auto.
    - intros I r E fl Mf TL SV Fi dv P V. destruct (fits_arith W lo hi fns Wok I _ TL r k l t e f K Fi) as [F1 [F2 [a [b [c [E1 [E2 [E3 [E4 E5]]]]]]]]].
      rewrite (int_val _ c dv P E3 V). cbn [lvalue]. rewrite (S1 I r E fl ltac:(flag) TL SV F1 (DZ a) Logic.I E1), (S2 I r E fl ltac:(flag) TL SV F2 (DZ b) Logic.I E2). cbn [arr_of].
      assert (X : nbin W (bin_of k) (AS (EI a)) (AS (EI b)) = option_map NA (broadcast (eop W (bin_of k)) (AS (EI a)) (AS (EI b)))).
      { destruct (bin_of k); try reflexivity; (destruct b; try reflexivity); exfalso; specialize (E5 ltac:(auto)); lia. }
      rewrite X. cbn [broadcast]. rewrite E4. reflexivity.
  Qed.
  Lemma lright_cmp k t e f le lf : is_cmp k = true -> lright e TInt le -> lright f TInt lf -> 5 <= le -> 5 <= lf -> lright (Node k t [e; f]) TBool 4.
  Proof.
    intros K [p [m1 [_ [T1 S1]]]] [q [m2 [_ [T2 S2]]]] L1 L2. eexists (PCmp p [(cmp_of_kind k, q)]), _. split; [discriminate|]. split.
    - intros vs F. apply ltxt_cmp with (le := le) (lf := lf); try assumption; [apply T1|apply T2];
        (eapply fresh_arg; [exact (not_var_c k K)| |exact F]); cbn; auto.
    - intros I r E fl Mf TL SV Fi dv P V. destruct (fits_cmp lo hi I _ r k t e f K Fi) as [F1 [F2 [a [b [c [E1 [E2 [E3 E4]]]]]]]].
      rewrite (bool_val _ c dv P E3 V). cbn [lvalue]. rewrite (S1 I r E fl ltac:(flag) TL SV F1 (DZ a) Logic.I E1), (S2 I r E fl ltac:(flag) TL SV F2 (DZ b) Logic.I E2). cbn [arr_of broadcast].
      rewrite E4. reflexivity.
  Qed.
  Lemma lright_and t e f te le tf lf : lright e te le -> lright f tf lf -> prim te = true -> prim tf = true -> lright (Node KAnd t [e; f]) TBool 2.
  Proof.
    intros [p [m1 [_ [T1 S1]]]] [q [m2 [_ [T2 S2]]]] P1 P2. eexists (PAnd p q), _. split; [discriminate|]. split.
    - intros vs F. assert (X := ltxt_and Lb fns d vs t e f te le tf lf p q m1 m2). rewrite P1, P2 in X. apply X; [apply T1|apply T2];
        (eapply fresh_arg; [| |exact F]); cbn; auto; discriminate.
    - intros I r E fl Mf TL SV Fi dv P V. destruct (fits_logic lo hi I _ r KAnd t e f ltac:(auto) Fi) as [F1 [F2 [a [b [E1 [E2 E3]]]]]].
      rewrite (bool_val _ _ dv P E3 V). cbn [lvalue]. rewrite (S1 I r E fl ltac:(flag) TL SV F1 (DB a) Logic.I E1). cbn [arr_of ntrue etrue].
      destruct a; [rewrite (S2 I r E fl ltac:(flag) TL SV F2 (DB b) Logic.I E2)|]; reflexivity.
  Qed.
  Lemma lright_or t e f te le tf lf : lright e te le -> lright f tf lf -> prim te = true -> prim tf = true -> lright (Node KOr t [e; f]) TBool 1.
  Proof.
    intros [p [m1 [_ [T1 S1]]]] [q [m2 [_ [T2 S2]]]] P1 P2. eexists (POr p q), _. split; [discriminate|]. split.
    - intros vs F. assert (X := ltxt_or Lb fns d vs t e f te le tf lf p q m1 m2). rewrite P1, P2 in X. apply X; [apply T1|apply T2];
        (eapply fresh_arg; [| |exact F]); cbn; auto; discriminate.
    - intros I r E fl Mf TL SV Fi dv P V. destruct (fits_logic lo hi I _ r KOr t e f ltac:(auto) Fi) as [F1 [F2 [a [b [E1 [E2 E3]]]]]].
      rewrite (bool_val _ _ dv P E3 V). cbn [lvalue]. rewrite (S1 I r E fl ltac:(flag) TL SV F1 (DB a) Logic.I E1). cbn [arr_of ntrue etrue].
      destruct a; [|rewrite (S2 I r E fl ltac:(flag) TL SV F2 (DB b) Logic.I E2)]; reflexivity.
  Qed.
  Lemma lright_not t e te le : lright e te le -> prim te = true -> 3 <= le -> lright (Node KNot t [e]) TBool 3.
  Proof.
    intros [p [m1 [_ [T1 S1]]]] P1 L. eexists (PNot p), _. split; [discriminate|]. split.
    - intros vs F. apply ltxt_not with (te := te) (le := le); try eassumption. apply T1. eapply fresh_arg; [| |exact F]; cbn; auto; discriminate.
    - intros I r E fl Mf TL SV Fi dv P V. destruct (fits_not lo hi I _ r t e Fi) as [F1 [a [E1 E3]]].
      rewrite (bool_val _ _ dv P E3 V). cbn [lvalue]. rewrite (S1 I r E fl ltac:(flag) TL SV F1 (DB a) Logic.I E1). reflexivity.
  Qed.
  Lemma lright_ite t c a b u tc lc la lb : lright c tc lc -> 1 <= lc -> lright a u la -> 1 <= la -> lright b u lb -> type_of a = Ok u -> lright (Node KIte t [c; a; b]) u 0.
  Proof.
    intros [pc [m0 [Nc [T0 S0]]]] L0 [pa [m1 [Na [T1 S1]]]] L1 [pb [m2 [Nb [T2 S2]]]] Ta.
    destruct (ltxt_ite Lb fns d t c a b u tc lc la lb pc pa pb m0 m1 m2 (T0 [] (fresh_nil c)) L0 L1 Ta) as [p [mf [Cs TX]]]. exists p, mf. split; [|split].
    - destruct Cs as [[-> _]|[[_ [-> _]]|[_ [-> _]]]]; [discriminate|exact Na|exact Nb].
    - intros vs F. apply TX; [apply T1|apply T2]; (eapply fresh_arg; [| |exact F]); cbn; auto; discriminate.
    - intros I r E fl Mf TL SV Fi dv P V. destruct Fi as [_ [F0 [F1 F2]]]. cbn [eval] in V.
      destruct (eval I r c) as [v|] eqn:Ec; [|discriminate V]. destruct v as [|bv| | |]; try discriminate V.
      destruct Cs as [[-> ->]|[[-> [-> ->]]|[-> [-> ->]]]].
      + pose proof (S0 I r E fl ltac:(flag) TL SV F0 (DB bv) Logic.I Ec) as Vc. cbn [lvalue]. rewrite Vc. cbn [arr_of ntrue etrue].
        destruct bv; [apply (S1 I r E fl ltac:(flag) TL SV (F1 eq_refl)); assumption|apply (S2 I r E fl ltac:(flag) TL SV (F2 eq_refl)); assumption].
      + pose proof (S0 I r E fl ltac:(flag) TL SV F0 (DB bv) Logic.I Ec) as Vc. cbn in Vc. injection Vc as <-. apply (S1 I r E fl ltac:(flag) TL SV (F1 eq_refl)); assumption.
      + pose proof (S0 I r E fl ltac:(flag) TL SV F0 (DB bv) Logic.I Ec) as Vc. cbn in Vc. injection Vc as <-. apply (S2 I r E fl ltac:(flag) TL SV (F2 eq_refl)); assumption.
  Qed.

  (** ** calls *)
  Lemma lright_infix f o swap t a b ta la tb lb : plain_call f -> f <> "matrix_selection_two_args" -> String.eqb f "matrix_vec_mul" = false -> infix_right W lo hi f o swap ->
    lright a ta la -> lright b tb lb -> lright (Node KCall t [Atom (PStr f); a; b]) t (op_level o).
  Proof.
    intros Pf Nf NM [C Vf] [p [m1 [_ [T1 S1]]]] [q [m2 [_ [T2 S2]]]]. eexists (if swap then PBin o q p else PBin o p q), _. split; [destruct swap; discriminate|]. split.
    - intros vs F. apply fresh_call in F. inversion F as [|? ? F1 F']; subst. inversion F' as [|? ? F2 _]; subst.
      apply (ltxt_infix Lb fns d Dint vs f o swap t a b ta la tb lb p q m1 m2 Pf C NM); auto.
    - intros I r E fl Mf TL SV Fi dv P V. destruct (fits_call lo hi fns I _ TL r t f [a; b] dv Nf Fi P V) as [A [ds [Ds [M [Wi Ef]]]]].
      inversion A as [|? ? A1 A']; subst. inversion A' as [|? ? A2 _]; subst. destruct (Vf ds dv M Wi) as [d1 [d2 [-> X]]].
      destruct (two _ _ _ _ Ds) as [x [y [Q [[Px Ex] [Py Ey]]]]]. injection Q as <- <-.
      pose proof (S1 I r E fl ltac:(flag) TL SV A1 d1 Px Ex) as V1. pose proof (S2 I r E fl ltac:(flag) TL SV A2 d2 Py Ey) as V2.
      unfold nops in X. destruct swap; cbn [lvalue]; rewrite V1, V2; exact X.
  Qed.
  Lemma lright_np1 f t a ta la : smem f f_np1 = true -> lright a ta la -> lright (Node KCall t [Atom (PStr f); a]) t 8.
  Proof.
    intros Hf [p [m1 [_ [T1 S1]]]]. eexists (PCall (lfn Lb (l_reduce Lb f)) [p]), _. split; [discriminate|]. split.
    - intros vs F. apply fresh_call in F. inversion F; subst. apply (ltxt_np1 Lb fns d Dint vs f t a ta la p m1 Hf). auto.
    - intros I r E fl Mf TL SV Fi dv P V.
      assert (Nf : f <> "matrix_selection_two_args") by (intros ->; discriminate Hf).
      destruct (fits_call lo hi fns I _ TL r t f [a] dv Nf Fi P V) as [A [ds [Ds [M [Wi Ef]]]]]. inversion A; subst.
      destruct (np1_value W lo hi Wok f ds dv Hf M Wi) as [d1 [-> X]]. destruct (one _ _ _ Ds) as [x [Q [Px Ex]]]. injection Q as <-.
      assert (Y : lcall Lb W fl (l_reduce Lb f) [plain d1] = npcall W (np1_text f) [plain d1]).
      { clear - Hf. apply smem_in in Hf. unfold f_np1 in Hf. repeat (destruct Hf as [<-|Hf]); try destruct Hf; destruct Lb; reflexivity. }
      rewrite (lcall_value Lb W fl E _ [p] [NA (arr_of d1)]); [cbn [map]; exact (eq_trans Y X)|]. constructor; [|constructor]. apply (S1 I r E fl ltac:(flag) TL SV); assumption.
  Qed.
  Lemma lright_np2 f t a b ta la tb lb : smem f f_np2 = true -> (Lb = TORCH -> f = "matrix_append" -> lb = 8) -> (f = "list_append" -> Lb = TF) ->
    lright a ta la -> lright b tb lb -> lright (Node KCall t [Atom (PStr f); a; b]) t 8.
  Proof.
    intros Hf L8 LA [p [m1 [_ [T1 S1]]]] [q [m2 [Nq [T2 S2]]]].
    assert (Nf : f <> "matrix_selection_two_args") by (intros ->; discriminate Hf).
    assert (Cs : f = "matrix_vec_mul" \/ (f = "list_append" \/ f = "matrix_append")).
    { apply smem_in in Hf. unfold f_np2 in Hf. repeat (destruct Hf as [<-|Hf]); auto. destruct Hf. }
    assert (Fr : forall vs, fresh (Node KCall t [Atom (PStr f); a; b]) vs -> ltxt Lb fns d vs a ta la p m1 /\ ltxt Lb fns d vs b tb lb q m2).
    { intros vs F. apply fresh_call in F. inversion F as [|? ? F1 F']; subst. inversion F' as [|? ? F2 _]; subst. auto. }
    assert (Vs : forall I r E fl, (m1 = true -> Lb = MLX -> fl = true) -> (m2 = true -> Lb = MLX -> fl = true) -> tensor_like fns I -> same_vars r E -> fits lo hi I (select_fits fns lo hi I) r (Node KCall t [Atom (PStr f); a; b]) ->
      forall dv, proper dv -> eval I r (Node KCall t [Atom (PStr f); a; b]) = Some (emb dv) ->
      exists d1 d2, tmean f [d1; d2] = Some dv /\ within lo hi dv /\ lvalue Lb W fl E p = Some (NA (arr_of d1)) /\ lvalue Lb W fl E q = Some (NA (arr_of d2))).
    { intros I r E fl Mf1 Mf2 TL SV Fi dv P V. destruct (fits_call lo hi fns I _ TL r t f [a; b] dv Nf Fi P V) as [A [ds [Ds [M [Wi Ef]]]]].
      inversion A as [|? ? A1 A']; subst. inversion A' as [|? ? A2 _]; subst. destruct (two _ _ _ _ Ds) as [d1 [d2 [-> [[Px Ex] [Py Ey]]]]].
      exists d1, d2. split; [exact M|]. split; [exact Wi|]. split; [apply (S1 I r E fl Mf1 TL SV)|apply (S2 I r E fl Mf2 TL SV)]; assumption. }
    destruct Cs as [->|Cs].
    - exists (matvec_exp Lb p q), (m1 || (m2 || false) || true). split; [unfold matvec_exp; discriminate|]. split.
      + intros vs F. destruct (Fr vs F). eapply ltxt_matmul; eassumption.
      + intros I r E fl Mf TL SV Fi dv P V. destruct (Vs I r E fl ltac:(flag) ltac:(flag) TL SV Fi dv P V) as [d1 [d2 [M [Wi [V1 V2]]]]].
        destruct (matmul_value W lo hi Wok _ dv M Wi) as [x [y [Q X]]]. injection Q as <- <-.
        assert (Fl : Lb = MLX -> fl = true) by (apply Mf; destruct m1, m2; reflexivity).
        assert (Vl : Forall2 (fun p v => lvalue Lb W fl E p = Some v) [p; q] [NA (arr_of d1); NA (arr_of d2)]) by (repeat constructor; assumption).
        unfold matvec_exp. destruct Lb.
        * rewrite (lcall_value MLX W fl E "matmul" _ _ Vl). rewrite (Fl eq_refl). exact X.
        * cbn [lvalue]. rewrite (largs_plain TF W fl E _ _ Vl). exact X.
        * rewrite (lcall_value TORCH W fl E "matmul" _ _ Vl). exact X.
    - exists (append_exp Lb p q), (m1 || (m2 || false) || false). split; [unfold append_exp; destruct Lb; discriminate|]. split.
      + intros vs F. destruct (Fr vs F). eapply ltxt_append; try eassumption. intros T. apply L8; [exact T|]. destruct Cs as [C|C]; [specialize (LA C); congruence|exact C].
      + intros I r E fl Mf TL SV Fi dv P V. destruct (Vs I r E fl ltac:(flag) ltac:(flag) TL SV Fi dv P V) as [d1 [d2 [M [Wi [V1 V2]]]]].
        destruct (append_value W lo hi f _ dv Cs M Wi) as [x [y [z [Q [X1 X2]]]]]. injection Q as <- <-.
        assert (Ax : Lb <> TF -> exists l, arr_of d2 = AV l /\ z = AM [l]).
        { intros NT. destruct Cs as [C|C]; [contradiction (NT (LA C))|]. subst f. clear - M X1.
          destruct d1; try discriminate M; destruct d2; try (cbn in M; repeat match type of M with context [if ?b then _ else _] => destruct b end; discriminate M). eexists. split; [reflexivity|]. cbn in X1. injection X1 as <-. reflexivity. }
        unfold append_exp. destruct Lb.
        * assert (V3 := lcall_kw _ _ fl E "expand_dims" q _ "axis" V2). destruct (Ax ltac:(discriminate)) as [l [Al ->]].
          assert (V4 : lvalue MLX W fl E (PCall (lfn MLX "expand_dims") [q; kw0 "axis"]) = Some (NA (AM [l]))).
          { rewrite V3. unfold plain in X1. rewrite Al in X1 |- *. exact X1. }
          rewrite (lcall_kw _ _ fl E "concatenate" _ _ "axis" (list_value _ _ fl E _ _ _ _ V1 V4)). exact X2.
        * assert (V4 : lvalue TF W fl E (PCall (lfn TF "expand_dims") [q; PNum 0]) = Some (NA z)).
          { rewrite (lcall_value TF W fl E "expand_dims" [q; PNum 0] [NA (arr_of d2); NA (AS (EI 0))]); [exact X1|]. constructor; [exact V2|repeat constructor]. }
          rewrite (lcall_kw _ _ fl E "concat" _ _ "axis" (list_value _ _ fl E _ _ _ _ V1 V4)). exact X2.
        * destruct (Ax ltac:(discriminate)) as [l [Al ->]].
          assert (V4 : lvalue TORCH W fl E (PCall (PAttr q "unsqueeze") [PNum 0]) = Some (NA (AM [l]))).
          { cbn [lvalue mapO option_map]. rewrite (not_module _ q Nq). cbn [is_linalg]. rewrite V2, Al. reflexivity. }
          rewrite (lcall_kw _ _ fl E "cat" _ _ "dim" (list_value _ _ fl E _ _ _ _ V1 V4)). exact X2.
  Qed.
  Lemma lright_size t a ta : lright a ta 8 -> lright (Node KCall t [Atom (PStr "list_length"); a]) t 8.
  Proof.
    intros [p [m1 [Np [T1 S1]]]]. exists (size_exp Lb p), (m1 || false || false). split; [unfold size_exp; destruct Lb; discriminate|]. split.
    - intros vs F. apply fresh_call in F. inversion F; subst. eapply ltxt_size; eauto.
    - intros I r E fl Mf TL SV Fi dv P V.
      destruct (fits_call lo hi fns I _ TL r t "list_length" [a] dv ltac:(discriminate) Fi P V) as [A [ds [Ds [M [Wi Ef]]]]]. inversion A; subst.
      destruct (one _ _ _ Ds) as [d1 [-> [Px Ex]]]. pose proof (S1 I r E fl ltac:(flag) TL SV H1 d1 Px Ex) as V1.
      destruct d1 as [| |l| |]; try discriminate M. cbn in M. injection M as <-. cbn [arr_of] in *. pose proof (not_module _ p Np) as Nm.
      unfold size_exp. destruct Lb.
      + cbn [lvalue]. rewrite Nm, V1. change (String.eqb "size" "size") with true. cbv iota. unfold count. rewrite flat_len. reflexivity.
      + rewrite (lcall_value TF W fl E "size" [p] [NA (AV (map EI l))]) by (repeat constructor; assumption).
        change (Some (count (AV (map EI l))) = Some (NA (AS (EI (Z.of_nat (List.length l)))))). unfold count. rewrite flat_len. reflexivity.
      + cbn [lvalue mapO kw0 option_map]. rewrite Nm. cbn [is_linalg]. rewrite V1. cbn [method]. rewrite map_length. reflexivity.
  Qed.

  Ltac branches M := repeat match type of M with
    | (if negb ?b then _ else _) = Some _ => let Q := fresh "Q" in destruct b eqn:Q; cbn [negb] in M; try discriminate M
    | (if ?b then _ else _) = Some _ => let Q := fresh "Q" in destruct b eqn:Q; try discriminate M
    end.
  Lemma at_value f ds v : smem f f_at = true -> tmean f ds = Some v -> exists x i, ds = [x; DZ i] /\
    forall fl E p q, lvalue Lb W fl E p = Some (NA (arr_of x)) -> lvalue Lb W fl E q = Some (NA (AS (EI i))) -> lvalue Lb W fl E (at_exp f p q) = Some (NA (arr_of v)).
  Proof.
    intros Hf M. apply smem_in in Hf. unfold f_at in Hf.
    repeat (destruct Hf as [<-|Hf]); try destruct Hf;
      (destruct ds as [|[a|a|a|a|a] [|[b|b|b|b|b] [|[c|c|c|c|c] [|? ?]]]]; try discriminate M); cbn in M; try discriminate M; unfold rows in M; branches M; eexists _, _; (split; [reflexivity|]);
      intros fl E p q V1 V2; cbn -[nslice nindex]; rewrite V1, V2; cbn [arr_of option_map]; injection M as <-; cbn [arr_of].
    - rewrite (nindex_in EI a b 0%Z Q). reflexivity.
    - rewrite (nindex_in (map EI) a b [] Q0). reflexivity.
    - rewrite nslice_map, nslice_upto by (apply Z.leb_le; assumption). reflexivity.
    - rewrite nslice_map, nslice_upto by (apply Z.leb_le; assumption). reflexivity.
    - rewrite nslice_map, nslice_from by (apply Z.leb_le; assumption). reflexivity.
  Qed.
  Lemma lright_at f t a i ta ti li : smem f f_at = true -> lright a ta 8 -> lright i ti li -> lright (Node KCall t [Atom (PStr f); a; i]) t 8.
  Proof.
    intros Hf [p [m1 [_ [T1 S1]]]] [q [m2 [_ [T2 S2]]]].
    assert (Nf : f <> "matrix_selection_two_args") by (intros ->; discriminate Hf).
    eexists (at_exp f p q), _. split; [unfold at_exp; repeat match goal with |- context[if ?b then _ else _] => destruct b end; discriminate|]. split.
    - intros vs F. apply fresh_call in F. inversion F as [|? ? F1 F']; subst. inversion F' as [|? ? F2 _]; subst. eapply ltxt_at; eauto.
    - intros I r E fl Mf TL SV Fi dv P V. destruct (fits_call lo hi fns I _ TL r t f [a; i] dv Nf Fi P V) as [A [ds [Ds [M [Wi Ef]]]]].
      inversion A as [|? ? A1 A']; subst. inversion A' as [|? ? A2 _]; subst. destruct (at_value f ds dv Hf M) as [x [z [-> X]]].
      destruct (two _ _ _ _ Ds) as [d1 [d2 [Q [[Px Ex] [Py Ey]]]]]. injection Q as <- <-.
      apply X; [apply (S1 I r E fl ltac:(flag) TL SV)|apply (S2 I r E fl ltac:(flag) TL SV A2 (DZ z))]; assumption.
  Qed.

  Lemma range_value (len : bool) f ds v : smem f (if len then f_range_len else f_range) = true -> tmean f ds = Some v -> exists x i j, ds = [x; DZ i; DZ j] /\
    forall fl E p q u, lvalue Lb W fl E p = Some (NA (arr_of x)) -> lvalue Lb W fl E q = Some (NA (AS (EI i))) -> lvalue Lb W fl E u = Some (NA (AS (EI (if len then i + j else j)))) ->
      lvalue Lb W fl E (range_exp (is_col f) p q u) = Some (NA (arr_of v)).
  Proof.
    intros Hf M. apply smem_in in Hf. unfold f_range, f_range_len in Hf.
    destruct len; repeat (destruct Hf as [<-|Hf]); try destruct Hf;
      (destruct ds as [|[a|a|a|a|a] [|[b|b|b|b|b] [|[c|c|c|c|c] [|? ?]]]]; try discriminate M); cbn in M; try discriminate M; unfold rows in M; branches M; eexists _, _, _; (split; [reflexivity|]);
      intros fl E p q u V1 V2 V3; cbn -[nslice nindex Z.add]; rewrite V1, V2, V3; cbn [arr_of option_map]; injection M as <-; cbn [arr_of];
      repeat match goal with H : (_ && _) = true |- _ => apply andb_true_iff in H; destruct H end;
      repeat match goal with H : (_ <=? _)%Z = true |- _ => apply Z.leb_le in H end.
    - rewrite nslice_map, nslice_between by lia. reflexivity.
    - rewrite nslice_map, nslice_between by lia. reflexivity.
    - rewrite !map_map. do 3 f_equal. apply map_ext. intros s. rewrite nslice_map, nslice_between by lia. reflexivity.
    - rewrite nslice_map, nslice_between by lia. reflexivity.
    - rewrite nslice_map, nslice_between by lia. reflexivity.
    - rewrite !map_map. do 3 f_equal. apply map_ext. intros s. rewrite nslice_map, nslice_between by lia. reflexivity.
  Qed.
  Lemma range_np col p q u : range_exp col p q u <> PName (module Lb).
  Proof. destruct col; discriminate. Qed.
  Lemma lright_range f t a i j ta ti li tj lj : smem f f_range = true -> lright a ta 8 -> lright i ti li -> lright j tj lj -> lright (Node KCall t [Atom (PStr f); a; i; j]) t 8.
  Proof.
    intros Hf [p [m1 [_ [T1 S1]]]] [q [m2 [_ [T2 S2]]]] [u [m3 [_ [T3 S3]]]].
    assert (Nf : f <> "matrix_selection_two_args") by (intros ->; discriminate Hf).
    eexists (range_exp (is_col f) p q u), _. split; [apply range_np|]. split.
    - intros vs F. apply fresh_call in F. inversion F as [|? ? F1 F']; subst. inversion F' as [|? ? F2 F'']; subst. inversion F'' as [|? ? F3 _]; subst. eapply ltxt_range; eauto.
    - intros I r E fl Mf TL SV Fi dv P V. destruct (fits_call lo hi fns I _ TL r t f [a; i; j] dv Nf Fi P V) as [A [ds [Ds [M [Wi Ef]]]]].
      inversion A as [|? ? A1 A']; subst. inversion A' as [|? ? A2 A'']; subst. inversion A'' as [|? ? A3 _]; subst.
      destruct (range_value false f ds dv Hf M) as [x [z [w [-> X]]]].
      destruct (three _ _ _ _ _ Ds) as [d1 [d2 [d3 [Q [[Px Ex] [[Py Ey] [Pz Ez]]]]]]]. injection Q as <- <- <-.
      apply X; [apply (S1 I r E fl ltac:(flag) TL SV)|apply (S2 I r E fl ltac:(flag) TL SV A2 (DZ z))|apply (S3 I r E fl ltac:(flag) TL SV A3 (DZ w))]; assumption.
  Qed.
  Lemma lright_range_len f t a i j ta ti li tj lj : smem f f_range_len = true -> lright a ta 8 -> lright i ti li -> 5 <= li -> lright j tj lj -> 6 <= lj ->
    lright (Node KCall t [Atom (PStr f); a; i; j]) t 8.
  Proof.
    intros Hf [p [m1 [_ [T1 S1]]]] [q [m2 [_ [T2 S2]]]] Li [u [m3 [_ [T3 S3]]]] Lj.
    assert (Nf : f <> "matrix_selection_two_args") by (intros ->; discriminate Hf).
    eexists (range_exp (is_col f) p q (PBin OAdd q u)), _. split; [apply range_np|]. split.
    - intros vs F. apply fresh_call in F. inversion F as [|? ? F1 F']; subst. inversion F' as [|? ? F2 F'']; subst. inversion F'' as [|? ? F3 _]; subst. eapply ltxt_range_len; eauto.
    - intros I r E fl Mf TL SV Fi dv P V. destruct (fits_call lo hi fns I _ TL r t f [a; i; j] dv Nf Fi P V) as [A [ds [Ds [M [Wi Ef]]]]].
      inversion A as [|? ? A1 A']; subst. inversion A' as [|? ? A2 A'']; subst. inversion A'' as [|? ? A3 _]; subst.
      destruct (range_value true f ds dv Hf M) as [x [z [w [-> X]]]].
      destruct (three _ _ _ _ _ Ds) as [d1 [d2 [d3 [Q [[Px Ex] [[Py Ey] [Pz Ez]]]]]]]. injection Q as <- <- <-.
      pose proof (S2 I r E fl ltac:(flag) TL SV A2 (DZ z) Py Ey) as V2. pose proof (S3 I r E fl ltac:(flag) TL SV A3 (DZ w) Pz Ez) as V3.
      apply X; [apply (S1 I r E fl ltac:(flag) TL SV); assumption|exact V2|]. cbn [lvalue]. rewrite V2, V3. cbn [arr_of nbin broadcast eop option_map]. unfold ei. unfold end_fits in Ef. rewrite Hf in Ef. rewrite (Wok _ Ef). reflexivity.
  Qed.

  (** ** selections *)
  Definition cond_exp (tc : ty) (pc : pexp) : pexp := match Lb with TORCH => if prim tc then PCall (lfn TORCH "tensor") [pc] else pc | _ => pc end.
  Lemma ltxt_select vs t m n s h p q c a b N0 rest tc lc ta la tb lb pc pa pb m0 fc fa fb : chosen fns = Some (h, (p, q), (c, a, b)) ->
    (forall k, N0 <= k -> exists ps, mapR (fun a => lhelper Lb fns d k a vs) (m :: n :: rest) = Ok ps /\ existsb snd ps = m0) ->
    let vs' := dset (dset [] p m) q n in tc = TBool \/ tc = TList TBool ->
    ltxt Lb fns d vs' c tc lc pc fc -> ltxt Lb fns d vs' a ta la pa fa -> ltxt Lb fns d vs' b tb lb pb fb -> s = "matrix_selection_two_args" ->
    ltxt Lb fns d vs (Node KCall t (Atom (PStr s) :: m :: n :: rest)) t 8 (PCall (lfn Lb "where") [cond_exp tc pc; pa; pb]) (m0 || false || fc || fa || fb).
  Proof.
    intros Ch H vs' Tb [N1 [s1 [t1 [H1 [X1 R1]]]]] [N2 [s2 [t2 [H2 [X2 R2]]]]] [N3 [s3 [t3 [H3 [X3 R3]]]]] ->.
    destruct (chosen_inv _ _ _ _ _ _ _ Ch) as [sl [u [vx [vy [Y1 [Y2 [Y3 [Y4 Y5]]]]]]]].
    set (wrap := match Lb with TORCH => prim tc | _ => false end).
    set (s1' := (if wrap then ("torch" ++ "." ++ "tensor" ++ "(") ++ s1 ++ ")" else s1)%string).
    set (t1' := if wrap then lhead TORCH "tensor" ++ t1 ++ [RP] else t1).
    assert (X1' : lexes s1' t1').
    { unfold s1', t1'. destruct wrap; [|exact X1]. apply (lexes_lib TORCH "tensor" [s1] [t1]); [npstart|repeat constructor; assumption]. }
    assert (R1' : at_level 0 t1' (cond_exp tc pc)).
    { assert (A1 := reads_at 0 lc _ _ R1 (Nat.le_0_l _)).
      assert (W1 : at_level 0 (lhead TORCH "tensor" ++ t1 ++ [RP]) (PCall (lfn TORCH "tensor") [pc])).
      { apply (at_lower 0 8); [lia|lia|]. apply opened_level. apply (opened_lib TORCH "tensor" [(t1, pc)]). repeat constructor. exact A1. }
      unfold t1', wrap, cond_exp. destruct Lb; [exact A1|exact A1|destruct (prim tc); [exact W1|exact A1]]. }
    exists (S (N0 + N1 + N2 + N3)), ((module Lb ++ "." ++ "where" ++ "(") ++ (s1' ++ ", " ++ s2 ++ ", " ++ s3) ++ ")")%string, (lhead Lb "where" ++ (t1' ++ Comma :: t2 ++ Comma :: t3) ++ [RP]). split; [|split].
    - intros k Lk. destruct k as [|k]; [lia|]. destruct (H k ltac:(lia)) as [ss [E Em]]. cbn [lhelper]. rewrite E. cbn [bindR].
      change (ends_with "matrix_selection_two_args" "matrix_selection_two_args") with true. cbv iota. rewrite Y1. cbn [bindR]. rewrite Y2. cbn [bindR]. rewrite Y3, Y4, Y5. cbn [bindR].
      fold vs'. rewrite (H1 k), (H2 k), (H3 k), Em by lia. cbn [bindR fst snd]. change (String.eqb "matrix_selection_two_args" "matrix_vec_mul") with false.
      do 3 f_equal. assert (Z : match Lb, Some tc with TORCH, Some TBool => ("torch.tensor(" ++ s1 ++ ")")%string | _, _ => s1 end = s1').
      { unfold s1', wrap. destruct Lb; [reflexivity|reflexivity|]. destruct Tb; subst tc; reflexivity. }
      rewrite Z. destruct Lb; cbn [module]; strs.
    - apply (lexes_lib Lb "where" [s1'; s2; s3] [t1'; t2; t3]); [destruct Lb; npstart|repeat constructor; assumption].
    - apply reads8; [reflexivity|]. apply (opened_lib Lb "where" [(t1', cond_exp tc pc); (t2, pa); (t3, pb)]).
      constructor; [|constructor; [|constructor; [|constructor]]]; cbn [fst snd]; [exact R1'|apply (reads_at 0 la _ _ R2)|apply (reads_at 0 lb _ _ R3)]; lia.
  Qed.
  Lemma lright_select t m n s ts h p q c a b lm ln tc lc ta la tb lb :
    chosen fns = Some (h, (p, q), (c, a, b)) -> p <> q -> lright m (TMatrix TInt) lm -> lright n (TMatrix TInt) ln ->
    (forall x, In x (var_names m ++ var_names n) -> x <> p /\ x <> q) ->
    bool_part p q (TMatrix TInt) lm (TMatrix TInt) ln c tc lc ->
    arith_part p q (TMatrix TInt) lm (TMatrix TInt) ln a ta la -> arith_part p q (TMatrix TInt) lm (TMatrix TInt) ln b tb lb ->
    (exists x, In x (var_names c ++ var_names a ++ var_names b)) ->
    lright (Node KCall t [Atom (PStr "matrix_selection_two_args"); m; n; var s ts]) t 8.
  Proof.
    intros Ch Npq [pm [m1 [_ [T1 S1]]]] [pn [m2 [_ [T2 S2]]]] Fr Bc Ba Bb Us.
    assert (FR : forall e, (forall x, In x (var_names e) -> In x (var_names m ++ var_names n)) -> fresh e (dset (dset [] p m) q n)).
    { intros e He x Hx. rewrite (vs_is p q m n Npq). destruct (Fr x (He x Hx)) as [X1 X2]. cbn [dget].
      rewrite (proj2 (String.eqb_neq x p) X1), (proj2 (String.eqb_neq x q) X2). reflexivity. }
    assert (Tm := T1 _ (FR m ltac:(intros; apply in_or_app; auto))). assert (Tn := T2 _ (FR n ltac:(intros; apply in_or_app; auto))).
    destruct (bool_good Lb W lo hi fns d Wok Dint p q lm ln m n pm pn m1 m2 Npq Tm Tn c tc lc Bc (fun T => Sel T _ _ _ _ _ _ Ch)) as [pc [fc [Tc Gc]]].
    destruct (arith_good Lb W lo hi fns d Wok Dint p q lm ln m n pm pn m1 m2 Npq Tm Tn a ta la Ba) as [pa [fa [Ta Ga]]].
    destruct (arith_good Lb W lo hi fns d Wok Dint p q lm ln m n pm pn m1 m2 Npq Tm Tn b tb lb Bb) as [pb [fb [Tb Gb]]].
    exists (PCall (lfn Lb "where") [cond_exp tc pc; pa; pb]), (m1 || (m2 || (false || false)) || false || fc || fa || fb). split; [discriminate|]. split.
    - intros vs F. apply fresh_call in F. inversion F as [|? ? F1 F']; subst. inversion F' as [|? ? F2 F'']; subst. inversion F'' as [|? ? F3 _]; subst.
      destruct (T1 vs F1) as [N1 [s1 [t1 [H1 _]]]]. destruct (T2 vs F2) as [N2 [s2 [t2 [H2 _]]]].
      apply (ltxt_select vs t m n _ h p q c a b (S (S (N1 + N2))) [var s ts] tc lc ta la tb lb pc pa pb (m1 || (m2 || (false || false))) fc fa fb Ch); auto; [|exact (bool_ty p q lm ln c tc lc Bc)].
      intros k Lk. eexists. cbn [mapR]. rewrite (H1 k), (H2 k) by lia. cbn [bindR fst].
      destruct k as [|[|k]]; [lia|lia|]. unfold var. cbn [lhelper mapR bindR np_arith l_rel]. rewrite (F3 s (or_introl eq_refl)). split; reflexivity.
    - intros I r E fl Mf TL SV Fi dv P V. destruct Fi as [_ Fi]. cbn beta iota in Fi. change (String.eqb "matrix_selection_two_args" "matrix_selection_two_args") with true in Fi. cbv iota in Fi.
      destruct Fi as [Fm [Fn Sl]]. unfold select_fits in Sl. rewrite Ch in Sl. destruct Sl as [M [N [Em [En [Es [Sd [Nc Fe]]]]]]].
      pose proof (same_dim_inv M N Sd) as [Rm [Rn [Ln Cn]]].
      pose proof (S1 I r E fl ltac:(flag) TL SV Fm (DM M) Rm Em) as Vm. pose proof (S2 I r E fl ltac:(flag) TL SV Fn (DM N) Rn En) as Vn. cbn [arr_of] in Vm, Vn.
      pose proof (some_pair M N Sd Nc) as So.
      assert (C : ctx Lb W fns pm pn I fl E M N) by (split; [exact TL|split; [exact Vm|split; [exact Vn|split; [exact Sd|exact So]]]]).
      assert (Fe' : forall pr, In pr (concat (prs M N)) -> Forall (fits lo hi I (fun _ _ => False) (bind2 p q (fst pr) (snd pr))) [c; a; b]).
      { intros [x y] Pr. apply Fe. exact (zip_pairs M N (x, y) Sd Pr). }
      assert (Fc : forall pr, In pr (concat (prs M N)) -> fits lo hi I (fun _ _ => False) (bind2 p q (fst pr) (snd pr)) c) by (intros pr Pr; specialize (Fe' pr Pr); inversion Fe'; assumption).
      assert (Fa : forall pr, In pr (concat (prs M N)) -> fits lo hi I (fun _ _ => False) (bind2 p q (fst pr) (snd pr)) a) by (intros pr Pr; specialize (Fe' pr Pr); inversion Fe' as [|? ? ? X]; inversion X; assumption).
      assert (Fb : forall pr, In pr (concat (prs M N)) -> fits lo hi I (fun _ _ => False) (bind2 p q (fst pr) (snd pr)) b) by (intros pr Pr; specialize (Fe' pr Pr); inversion Fe' as [|? ? ? X]; inversion X as [|? ? ? Y]; inversion Y; assumption).
      destruct (Gc I fl E M N C Fc) as [Rc [Vc [Sc Mc]]]. destruct (Ga I fl E M N C Fa) as [Ra [Va [Sa Ma]]]. destruct (Gb I fl E M N C Fb) as [Rb [Vb [Sb Mb]]].
      destruct (spread (prs M N) So (fun a b : elt => Some (a, b)) Ra Rb _ _ (fun pr => (on p q I a pr, on p q I b pr)) Sa Sb ltac:(reflexivity)) as [Rz [Bz [Sz Mz]]].
      destruct (spread (prs M N) So (fun c (pq : elt * elt) => Some (if etrue c then fst pq else snd pq)) Rc Rz _ _ (fun pr => if etrue (on p q I c pr) then on p q I a pr else on p q I b pr) Sc Sz ltac:(reflexivity)) as [R [B [Sr Mr]]].
      assert (Im : isM R = true).
      { rewrite Mr, Mz, Mc, Ma, Mb. destruct Us as [x Hx]. apply in_app_or in Hx. destruct Hx as [Hx|Hx]; [rewrite (bool_uses p q lm ln c tc lc Bc) by eauto; reflexivity|].
        apply in_app_or in Hx. destruct Hx as [Hx|Hx]; [rewrite (arith_uses p q lm ln a ta la Ba) by eauto|rewrite (arith_uses p q lm ln b tb lb Bb) by eauto]; destruct (prim tc), (prim ta); reflexivity. }
      destruct R as [| |R]; try discriminate Im. cbn [stands] in Sr.
      assert (Vc' : lvalue Lb W fl E (cond_exp tc pc) = Some (NA Rc)).
      { unfold cond_exp. destruct Lb; [exact Vc|exact Vc|]. destruct (prim tc) eqn:Pc; [|exact Vc]. cbn [negb] in Mc.
        destruct (NpProofs4.const_of M N Rc _ Sc Mc) as [v Ev]. rewrite (lcall_value TORCH W fl E "tensor" [pc] [NA Rc]) by (repeat constructor; assumption). subst Rc. reflexivity. }
      rewrite (lcall_value Lb W fl E "where" [cond_exp tc pc; pa; pb] [NA Rc; NA Ra; NA Rb]) by (repeat constructor; assumption).
      replace (lcall Lb W fl "where" (map (pair None) [NA Rc; NA Ra; NA Rb])) with (npcall W "where" (map (pair None) [NA Rc; NA Ra; NA Rb])) by (destruct Lb; reflexivity).
      change (match broadcast (fun a b : elt => Some (a, b)) Ra Rb with
              | Some z => option_map NA (broadcast (fun c (p : elt * elt) => Some (if etrue c then fst p else snd p)) Rc z) | None => None end = Some (NA (arr_of dv))).
      rewrite Bz, B. cbn [option_map].
      set (g := fun x y => match eval I (bind2 p q x y) (Node KIte TInt [c; a; b]) with Some (VInt z) => Some z | _ => None end).
      assert (Hg : forall x y, i_call I h [VInt x; VInt y] = option_map VInt (g x y)).
      { intros x y. rewrite (tl_fun _ _ TL h p q c a b Ch x y). unfold g. cbn [eval].
        destruct (eval I (bind2 p q x y) c) as [[|[|]| | |]|]; try reflexivity.
        - destruct (arith_int p q lm ln Npq a ta la Ba I x y) as [z ->]. destruct z; reflexivity.
        - destruct (arith_int p q lm ln Npq b tb lb Bb I x y) as [z ->]. destruct z; reflexivity. }
      cbn [eval mapO] in V. rewrite Em, En in V. unfold var in V. cbn [eval] in V. unfold var in Es. cbn [eval] in Es. rewrite Es in V. rewrite (tl_sel _ _ TL h g M N Hg Sd) in V.
      destruct (zipO (zipO g) M N) as [res|] eqn:Er; [|discriminate V]. cbn [option_map] in V. injection V as V.
      assert (Rr : rectb res = true).
      { destruct dv; try discriminate V; cbn [proper emb] in *; try contradiction.
        - assert (L0 := mapO_len _ _ _ Er). rewrite combine_length, <- Ln, Nat.min_id in L0. destruct res as [|r0 res]; [destruct M; [discriminate Rm|discriminate L0]|]. destruct l; discriminate V.
        - rewrite (vm_inj _ _ V). exact P. }
      rewrite <- (emb_inj (DM res) dv Rr P V). cbn [arr_of]. do 2 f_equal. rewrite Sr, <- (sel_grid g (fun pr => elt_of (eval I (bind2 p q (fst pr) (snd pr)) (Node KIte TInt [c; a; b]))) M N res); [|intros pr z; unfold g; cbv beta; destruct (eval I (bind2 p q (fst pr) (snd pr)) (Node KIte TInt [c; a; b])) as [[]|]; try discriminate; intros X; injection X as <-; reflexivity|exact Er].
      f_equal. apply grid_ext. intros pr Pr. unfold on. cbn [eval].
      destruct (fits_val lo hi I _ _ _ (Fc pr Pr)) as [dc [Pc [_ Ec]]].
      destruct (bool_on lo hi p q lm ln I c tc lc Bc pr (Fc pr Pr)) as [bv Eb]. rewrite Eb. destruct bv; reflexivity.
  Qed.

  Lemma tight_level e t l : shown fns e t l -> tight e = true -> l = 8.
  Proof.
    intros H T. destruct H; try reflexivity; try discriminate T.
    - destruct k; try discriminate H; discriminate T.
    - destruct k; try discriminate H; discriminate T.
    - cbn [tight] in T. unfold smem in T, H. rewrite existsb_app, H in T. discriminate T.
    - cbn [tight] in T. unfold smem in T, H. rewrite existsb_app, H, orb_true_r in T. discriminate T.
  Qed.
  Lemma portable_args k t args : portable Lb d (Node k t args) = true -> Forall (fun a => portable Lb d a = true) args.
  Proof. intros H. cbn [portable] in H. apply andb_true_iff in H. destruct H as [_ H]. apply Forall_forall. apply forallb_forall. exact H. Qed.
  Ltac parts H := apply portable_args in H; repeat match goal with F : Forall _ (_ :: _) |- _ => inversion F; clear F; subst end.

  Theorem shown_lright e t l : shown fns e t l -> portable Lb d e = true -> lright e t l.
  Proof.
    induction 1; intros PO.
    - apply lright_var; [assumption|]. cbn [portable var] in PO. apply andb_true_iff in PO. destruct PO as [PO _]. apply negb_true_iff in PO. apply String.eqb_neq in PO. exact PO.
    - apply lright_lit.
    - apply lright_blit.
    - parts PO. eapply lright_arith; eauto.
    - parts PO. eapply lright_cmp; eauto.
    - parts PO. eapply lright_and; eauto.
    - parts PO. eapply lright_or; eauto.
    - parts PO. eapply lright_not; eauto.
    - parts PO. eapply lright_ite; eauto.
    - parts PO. destruct (infix_sum W lo hi Wok f H) as [o [swap [O R]]]. replace 5 with (op_level o) by (destruct O; subst; reflexivity).
      apply smem_in in H. unfold f_sum in H.
      apply (lright_infix f o swap t a b ta la tb lb); auto; repeat (destruct H as [<-|H]); try destruct H; try discriminate; try reflexivity; split; reflexivity.
    - parts PO. destruct (infix_prod W lo hi Wok f H) as [o [swap [O R]]]. replace 6 with (op_level o) by (destruct O; subst; reflexivity).
      apply smem_in in H. unfold f_prod in H.
      apply (lright_infix f o swap t a b ta la tb lb); auto; repeat (destruct H as [<-|H]); try destruct H; try discriminate; try reflexivity; split; reflexivity.
    - parts PO. eapply lright_np1; eauto.
    - pose proof PO as PO'. cbn [portable] in PO'. apply andb_true_iff in PO'. destruct PO' as [C _]. parts PO. apply (lright_np2 f t a b ta la tb lb); [exact H| | |auto|auto].
      + intros T F. rewrite F, T in C. cbn in C. eapply tight_level; eassumption.
      + intros F. rewrite F in C. cbn in C. destruct Lb; try discriminate C. reflexivity.
    - parts PO. eapply lright_size; eauto.
    - parts PO. eapply lright_at; eauto.
    - parts PO. eapply lright_range; eauto.
    - parts PO. eapply lright_range_len; eauto.
    - parts PO. eapply lright_select; eauto.
  Qed.
End Right.
