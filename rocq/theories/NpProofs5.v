(** Proofs for C45: the theorem. *)

From Coq Require Import String Ascii List ZArith Bool Lia.
From Verif Require Import Ast Semantics Dict SmtPrint PyGram PyParse PyMean RktModel LibSem NpModel NpSem NpProofs NpProofs2 NpProofs3 NpProofs4.
Import ListNotations.
Local Open Scope string_scope.
Local Open Scope list_scope.

Section Right.
  Variables (W : Z -> Z) (lo hi : Z) (fns : list (string * expr)) (d : dtype).
  Hypothesis Wok : forall z, (lo <= z <= hi)%Z -> W z = z.
  Hypothesis Dint : is_float d = false.

  Definition sem (e : expr) (p : pexp) : Prop :=
    forall I r E, tensor_like fns I -> same_vars r E -> fits lo hi I (select_fits fns lo hi I) r e ->
    forall dv, proper dv -> eval I r e = Some (emb dv) -> npvalue W E p = Some (NA (arr_of dv)).
  Definition right (e : expr) (t : ty) (l : nat) : Prop :=
    exists p, p <> PName "np" /\ (forall vs, fresh e vs -> txt fns d vs e t l p) /\ sem e p.

  Lemma int_val v z dv : proper dv -> v = Some (VInt z) -> v = Some (emb dv) -> dv = DZ z.
  Proof. intros P -> X. injection X as X. apply emb_int; auto. Qed.
  Lemma bool_val v b dv : proper dv -> v = Some (VBool b) -> v = Some (emb dv) -> dv = DB b.
  Proof. intros P -> X. injection X as X. apply emb_bool; auto. Qed.

  Lemma right_var x t : py_name x = true -> x <> "np" -> right (var x t) t 8.
  Proof.
    intros Nx Nn. exists (PName x). split; [intros X; injection X as X; contradiction|]. split.
    - intros vs F. apply txt_var; [exact Nx|]. apply F. left. reflexivity.
    - intros I r E _ S _ dv P V. exact (S x dv P V).
  Qed.
  Lemma right_lit z : right (lit z) TInt 7.
  Proof.
    exists (num_exp z). split; [unfold num_exp; destruct (z <? 0)%Z; discriminate|]. split; [intros vs _; apply txt_lit|].
    intros I r E _ _ _ dv P V. assert (X := int_val _ z dv P eq_refl V). subst dv.
    unfold num_exp. destruct (z <? 0)%Z; [|reflexivity]. cbn [npvalue]. rewrite Z.opp_involutive. reflexivity.
  Qed.
  Lemma right_blit b : right (blit b) TBool 8.
  Proof.
    exists (PBoolE b). split; [discriminate|]. split; [intros vs _; apply txt_blit|].
    intros I r E _ _ _ dv P V. assert (X := bool_val _ b dv P eq_refl V). subst dv. reflexivity.
  Qed.
  Lemma not_var k l : arith_level k = Some l -> k <> KVar. Proof. destruct k; discriminate. Qed.
  Lemma not_var_c k : is_cmp k = true -> k <> KVar. Proof. destruct k; discriminate. Qed.

  Lemma right_arith k l t e f te le tf lf : arith_level k = Some l -> right e te le -> right f tf lf -> right (Node k t [e; f]) (join_ty te tf) l.
  Proof.
    intros K [p [_ [T1 S1]]] [q [_ [T2 S2]]]. exists (PBin (bin_of k) p q). split; [discriminate|]. split.
    - intros vs F. apply txt_arith with (le := le) (lf := lf); [exact Dint|exact K|apply T1|apply T2];
        (eapply fresh_arg; [exact (not_var k l K)| |exact F]); cbn; auto.
    - intros I r E TL SV Fi dv P V. destruct (fits_arith W lo hi fns Wok I _ TL r k l t e f K Fi) as [F1 [F2 [a [b [c [E1 [E2 [E3 [E4 E5]]]]]]]]].
      rewrite (int_val _ c dv P E3 V). cbn [npvalue]. rewrite (S1 I r E TL SV F1 (DZ a) Logic.I E1), (S2 I r E TL SV F2 (DZ b) Logic.I E2). cbn [arr_of].
      assert (X : nbin W (bin_of k) (AS (EI a)) (AS (EI b)) = option_map NA (broadcast (eop W (bin_of k)) (AS (EI a)) (AS (EI b)))).
      { destruct (bin_of k); try reflexivity; (destruct b; try reflexivity); exfalso; specialize (E5 ltac:(auto)); lia. }
      rewrite X. cbn [broadcast]. rewrite E4. reflexivity.
  Qed.
  Lemma right_cmp k t e f le lf : is_cmp k = true -> right e TInt le -> right f TInt lf -> 5 <= le -> 5 <= lf -> right (Node k t [e; f]) TBool 4.
  Proof.
    intros K [p [_ [T1 S1]]] [q [_ [T2 S2]]] L1 L2. exists (PCmp p [(cmp_of_kind k, q)]). split; [discriminate|]. split.
    - intros vs F. apply txt_cmp with (le := le) (lf := lf); try assumption; [apply T1|apply T2];
        (eapply fresh_arg; [exact (not_var_c k K)| |exact F]); cbn; auto.
    - intros I r E TL SV Fi dv P V. destruct (fits_cmp lo hi I _ r k t e f K Fi) as [F1 [F2 [a [b [c [E1 [E2 [E3 E4]]]]]]]].
      rewrite (bool_val _ c dv P E3 V). cbn [npvalue]. rewrite (S1 I r E TL SV F1 (DZ a) Logic.I E1), (S2 I r E TL SV F2 (DZ b) Logic.I E2). cbn [arr_of broadcast].
      rewrite E4. reflexivity.
  Qed.
  Lemma right_and t e f te le tf lf : right e te le -> right f tf lf -> prim te = true -> prim tf = true -> right (Node KAnd t [e; f]) TBool 2.
  Proof.
    intros [p [_ [T1 S1]]] [q [_ [T2 S2]]] P1 P2. exists (PAnd p q). split; [discriminate|]. split.
    - intros vs F. assert (X := txt_and fns d vs t e f te le tf lf p q). rewrite P1, P2 in X. apply X; [apply T1|apply T2];
        (eapply fresh_arg; [| |exact F]); cbn; auto; discriminate.
    - intros I r E TL SV Fi dv P V. destruct (fits_logic lo hi I _ r KAnd t e f ltac:(auto) Fi) as [F1 [F2 [a [b [E1 [E2 E3]]]]]].
      rewrite (bool_val _ _ dv P E3 V). cbn [npvalue]. rewrite (S1 I r E TL SV F1 (DB a) Logic.I E1). cbn [arr_of ntrue etrue].
      destruct a; [rewrite (S2 I r E TL SV F2 (DB b) Logic.I E2)|]; reflexivity.
  Qed.
  Lemma right_or t e f te le tf lf : right e te le -> right f tf lf -> prim te = true -> prim tf = true -> right (Node KOr t [e; f]) TBool 1.
  Proof.
    intros [p [_ [T1 S1]]] [q [_ [T2 S2]]] P1 P2. exists (POr p q). split; [discriminate|]. split.
    - intros vs F. assert (X := txt_or fns d vs t e f te le tf lf p q). rewrite P1, P2 in X. apply X; [apply T1|apply T2];
        (eapply fresh_arg; [| |exact F]); cbn; auto; discriminate.
    - intros I r E TL SV Fi dv P V. destruct (fits_logic lo hi I _ r KOr t e f ltac:(auto) Fi) as [F1 [F2 [a [b [E1 [E2 E3]]]]]].
      rewrite (bool_val _ _ dv P E3 V). cbn [npvalue]. rewrite (S1 I r E TL SV F1 (DB a) Logic.I E1). cbn [arr_of ntrue etrue].
      destruct a; [|rewrite (S2 I r E TL SV F2 (DB b) Logic.I E2)]; reflexivity.
  Qed.
  Lemma right_not t e te le : right e te le -> prim te = true -> 3 <= le -> right (Node KNot t [e]) TBool 3.
  Proof.
    intros [p [_ [T1 S1]]] P1 L. exists (PNot p). split; [discriminate|]. split.
    - intros vs F. apply txt_not with (te := te) (le := le); try assumption. apply T1. eapply fresh_arg; [| |exact F]; cbn; auto; discriminate.
    - intros I r E TL SV Fi dv P V. destruct (fits_not lo hi I _ r t e Fi) as [F1 [a [E1 E3]]].
      rewrite (bool_val _ _ dv P E3 V). cbn [npvalue]. rewrite (S1 I r E TL SV F1 (DB a) Logic.I E1). reflexivity.
  Qed.
  Lemma right_ite t c a b u tc lc la lb : right c tc lc -> 1 <= lc -> right a u la -> 1 <= la -> right b u lb -> type_of a = Ok u -> right (Node KIte t [c; a; b]) u 0.
  Proof.
    intros [pc [Nc [T0 S0]]] L0 [pa [Na [T1 S1]]] L1 [pb [Nb [T2 S2]]] Ta.
    destruct (txt_ite fns d t c a b u tc lc la lb pc pa pb (T0 [] (fresh_nil c)) L0 L1 Ta) as [p [Cs TX]]. exists p. split; [|split].
    - destruct Cs as [->|[[_ ->]|[_ ->]]]; [discriminate|exact Na|exact Nb].
    - intros vs F. apply TX; [apply T1|apply T2]; (eapply fresh_arg; [| |exact F]); cbn; auto; discriminate.
    - intros I r E TL SV Fi dv P V. destruct Fi as [_ [F0 [F1 F2]]]. cbn [eval] in V.
      destruct (eval I r c) as [v|] eqn:Ec; [|discriminate V]. destruct v as [|bv| | |]; try discriminate V.
      pose proof (S0 I r E TL SV F0 (DB bv) Logic.I Ec) as Vc.
      assert (Vb : npvalue W E (if bv then pa else pb) = Some (NA (arr_of dv))) by (destruct bv; [apply (S1 I r E TL SV (F1 eq_refl)); assumption|apply (S2 I r E TL SV (F2 eq_refl)); assumption]).
      destruct Cs as [->|[[-> ->]|[-> ->]]].
      + cbn [npvalue]. rewrite Vc. cbn [arr_of ntrue etrue]. destruct bv; exact Vb.
      + cbn in Vc. injection Vc as <-. exact Vb.
      + cbn in Vc. injection Vc as <-. exact Vb.
  Qed.

  (** ** calls *)
  Lemma fresh_call t f args vs : fresh (Node KCall t (Atom (PStr f) :: args)) vs -> Forall (fun a => fresh a vs) args.
  Proof. intros F. apply Forall_forall. intros a Ha. eapply fresh_arg; [| |exact F]; [discriminate|right; exact Ha]. Qed.
  Lemma one {A B} (R : A -> B -> Prop) a ds : Forall2 R [a] ds -> exists x, ds = [x] /\ R a x.
  Proof. intros F. inversion F as [|? x ? l H1 H2]; subst. inversion H2; subst. eauto. Qed.
  Lemma two {A B} (R : A -> B -> Prop) a b ds : Forall2 R [a; b] ds -> exists x y, ds = [x; y] /\ R a x /\ R b y.
  Proof. intros F. inversion F as [|? x ? l H1 H2]; subst. destruct (one _ _ _ H2) as [y [-> H]]. eauto 6. Qed.
  Lemma three {A B} (R : A -> B -> Prop) a b c ds : Forall2 R [a; b; c] ds -> exists x y z, ds = [x; y; z] /\ R a x /\ R b y /\ R c z.
  Proof. intros F. inversion F as [|? x ? l H1 H2]; subst. destruct (two _ _ _ _ H2) as [y [z [-> [H3 H4]]]]. eauto 8. Qed.

  Lemma right_infix f o swap t a b ta la tb lb : plain_call f -> f <> "matrix_selection_two_args" -> infix_right W lo hi f o swap ->
    right a ta la -> right b tb lb -> right (Node KCall t [Atom (PStr f); a; b]) t (op_level o).
  Proof.
    intros Pf Nf [C Vf] [p [_ [T1 S1]]] [q [_ [T2 S2]]]. exists (if swap then PBin o q p else PBin o p q). split; [destruct swap; discriminate|]. split.
    - intros vs F. apply fresh_call in F. inversion F as [|? ? F1 F']; subst. inversion F' as [|? ? F2 _]; subst.
      apply (txt_infix fns d Dint vs f o swap t a b ta la tb lb p q Pf C); auto.
    - intros I r E TL SV Fi dv P V. destruct (fits_call lo hi fns I _ TL r t f [a; b] dv Nf Fi P V) as [A [ds [Ds [M [Wi Ef]]]]].
      inversion A as [|? ? A1 A']; subst. inversion A' as [|? ? A2 _]; subst. destruct (Vf ds dv M Wi) as [d1 [d2 [-> X]]].
      destruct (two _ _ _ _ Ds) as [x [y [Q [[Px Ex] [Py Ey]]]]]. injection Q as <- <-.
      pose proof (S1 I r E TL SV A1 d1 Px Ex) as V1. pose proof (S2 I r E TL SV A2 d2 Py Ey) as V2.
      unfold nops in X. destruct swap; cbn [npvalue]; rewrite V1, V2; exact X.
  Qed.
  Lemma right_np1 f t a ta la : smem f f_np1 = true -> right a ta la -> right (Node KCall t [Atom (PStr f); a]) t 8.
  Proof.
    intros Hf [p [_ [T1 S1]]]. exists (PCall (np_fn (np1_text f)) [p]). split; [discriminate|]. split.
    - intros vs F. apply fresh_call in F. inversion F; subst. apply (txt_np1 fns d Dint vs f t a ta la p Hf). auto.
    - intros I r E TL SV Fi dv P V.
      assert (Nf : f <> "matrix_selection_two_args") by (intros ->; discriminate Hf).
      destruct (fits_call lo hi fns I _ TL r t f [a] dv Nf Fi P V) as [A [ds [Ds [M [Wi Ef]]]]]. inversion A; subst.
      destruct (np1_value W lo hi Wok f ds dv Hf M Wi) as [d1 [-> X]]. destruct (one _ _ _ Ds) as [x [Q [Px Ex]]]. injection Q as <-.
      rewrite (call_value W E _ [p] [NA (arr_of d1)]); [exact X|]. constructor; [|constructor]. apply (S1 I r E TL SV); assumption.
  Qed.
  Lemma right_np2 f t a b ta la tb lb : smem f f_np2 = true -> right a ta la -> right b tb lb -> right (Node KCall t [Atom (PStr f); a; b]) t 8.
  Proof.
    intros Hf [p [_ [T1 S1]]] [q [_ [T2 S2]]].
    assert (Nf : f <> "matrix_selection_two_args") by (intros ->; discriminate Hf).
    assert (Cs : f = "matrix_vec_mul" \/ (f = "list_append" \/ f = "matrix_append")).
    { apply smem_in in Hf. unfold f_np2 in Hf. repeat (destruct Hf as [<-|Hf]); auto. destruct Hf. }
    assert (Fr : forall vs, fresh (Node KCall t [Atom (PStr f); a; b]) vs -> txt fns d vs a ta la p /\ txt fns d vs b tb lb q).
    { intros vs F. apply fresh_call in F. inversion F as [|? ? F1 F']; subst. inversion F' as [|? ? F2 _]; subst. auto. }
    assert (Vs : forall I r E, tensor_like fns I -> same_vars r E -> fits lo hi I (select_fits fns lo hi I) r (Node KCall t [Atom (PStr f); a; b]) ->
      forall dv, proper dv -> eval I r (Node KCall t [Atom (PStr f); a; b]) = Some (emb dv) ->
      exists d1 d2, tmean f [d1; d2] = Some dv /\ within lo hi dv /\ npvalue W E p = Some (NA (arr_of d1)) /\ npvalue W E q = Some (NA (arr_of d2))).
    { intros I r E TL SV Fi dv P V. destruct (fits_call lo hi fns I _ TL r t f [a; b] dv Nf Fi P V) as [A [ds [Ds [M [Wi Ef]]]]].
      inversion A as [|? ? A1 A']; subst. inversion A' as [|? ? A2 _]; subst. destruct (two _ _ _ _ Ds) as [d1 [d2 [-> [[Px Ex] [Py Ey]]]]].
      exists d1, d2. split; [exact M|]. split; [exact Wi|]. split; [apply (S1 I r E TL SV)|apply (S2 I r E TL SV)]; assumption. }
    destruct Cs as [->|Cs].
    - exists (PCall (np_fn "matmul") [p; q]). split; [discriminate|]. split.
      + intros vs F. destruct (Fr vs F). eapply txt_matmul; eassumption.
      + intros I r E TL SV Fi dv P V. destruct (Vs I r E TL SV Fi dv P V) as [d1 [d2 [M [Wi [V1 V2]]]]].
        destruct (matmul_value W lo hi Wok _ dv M Wi) as [x [y [Q X]]]. injection Q as <- <-.
        rewrite (call_value W E _ [p; q] [NA (arr_of d1); NA (arr_of d2)]); [exact X|]. repeat constructor; assumption.
    - exists (PCall (np_fn "concatenate") [PList [(false, p); (false, PCall (np_fn "expand_dims") [q; axis_kw])]; axis_kw]). split; [discriminate|]. split.
      + intros vs F. destruct (Fr vs F). eapply txt_append; eassumption.
      + intros I r E TL SV Fi dv P V. destruct (Vs I r E TL SV Fi dv P V) as [d1 [d2 [M [Wi [V1 V2]]]]].
        destruct (append_value W lo hi f _ dv Cs M Wi) as [x [y [z [Q [X1 X2]]]]]. injection Q as <- <-.
        rewrite (call_axis W E "concatenate" _ (NSeq [NA (arr_of d1); NA z])); [exact X2|].
        assert (V3 := call_axis W E "expand_dims" q _ V2). change (npcall W "expand_dims" [(None, NA (arr_of d2)); axis0]) with (npcall W "expand_dims" [plain d2; axis0]) in V3. rewrite X1 in V3.
        change (option_map NSeq (mapO (fun x : bool * pexp => if fst x then None else npvalue W E (snd x)) [(false, p); (false, PCall (np_fn "expand_dims") [q; axis_kw])]) = Some (NSeq [NA (arr_of d1); NA z])).
        cbn [mapO fst snd]. rewrite V1, V3. reflexivity.
  Qed.
  Lemma flat_len l : List.length (flat (AV (map EI l))) = List.length l.
  Proof. cbn. apply map_length. Qed.
  Lemma right_size t a ta : right a ta 8 -> right (Node KCall t [Atom (PStr "list_length"); a]) t 8.
  Proof.
    intros [p [Np [T1 S1]]]. exists (PAttr p "size"). split; [discriminate|]. split.
    - intros vs F. apply fresh_call in F. inversion F; subst. eapply txt_size; eauto.
    - intros I r E TL SV Fi dv P V.
      destruct (fits_call lo hi fns I _ TL r t "list_length" [a] dv ltac:(discriminate) Fi P V) as [A [ds [Ds [M [Wi Ef]]]]]. inversion A; subst.
      destruct (one _ _ _ Ds) as [d1 [-> [Px Ex]]]. pose proof (S1 I r E TL SV H1 d1 Px Ex) as V1.
      destruct d1; try discriminate M. cbn in M. injection M as <-. cbn [arr_of] in *.
      assert (X : npvalue W E (PAttr p "size") = match npvalue W E p with Some (NA v) => Some (NA (AS (EI (Z.of_nat (List.length (flat v)))))) | _ => None end).
      { destruct p; try reflexivity. destruct (String.eqb x "np") eqn:Q; [apply String.eqb_eq in Q; subst; congruence|].
        cbn [npvalue]. clear - Q. destruct x as [|c x]; [reflexivity|]. destruct c as [[] [] [] [] [] [] [] []]; try reflexivity. destruct x as [|c x]; [reflexivity|].
        destruct c as [[] [] [] [] [] [] [] []]; try reflexivity. destruct x; [discriminate Q|reflexivity]. }
      rewrite X, V1, flat_len. reflexivity.
  Qed.

  Definition ints (ds : list dval) : Prop := Forall (fun x => exists z, x = DZ z) ds.
  Ltac branches M := repeat match type of M with
    | (if negb ?b then _ else _) = Some _ => let Q := fresh "Q" in destruct b eqn:Q; cbn [negb] in M; try discriminate M
    | (if ?b then _ else _) = Some _ => let Q := fresh "Q" in destruct b eqn:Q; try discriminate M
    end.
  Lemma at_value f ds v : smem f f_at = true -> tmean f ds = Some v -> exists x i, ds = [x; DZ i] /\
    forall E p q, npvalue W E p = Some (NA (arr_of x)) -> npvalue W E q = Some (NA (AS (EI i))) -> npvalue W E (at_exp f p q) = Some (NA (arr_of v)).
  Proof.
    intros Hf M. apply smem_in in Hf. unfold f_at in Hf.
    repeat (destruct Hf as [<-|Hf]); try destruct Hf;
      (destruct ds as [|[a|a|a|a|a] [|[b|b|b|b|b] [|[c|c|c|c|c] [|? ?]]]]; try discriminate M); cbn in M; try discriminate M; unfold rows in M; branches M; eexists _, _; (split; [reflexivity|]);
      intros E p q V1 V2; cbn -[nslice nindex]; rewrite V1, V2; cbn [arr_of option_map]; injection M as <-; cbn [arr_of].
    - rewrite (nindex_in EI a b 0%Z Q). reflexivity.
    - rewrite (nindex_in (map EI) a b [] Q0). reflexivity.
    - rewrite nslice_map, nslice_upto by (apply Z.leb_le; assumption). reflexivity.
    - rewrite nslice_map, nslice_upto by (apply Z.leb_le; assumption). reflexivity.
    - rewrite nslice_map, nslice_from by (apply Z.leb_le; assumption). reflexivity.
  Qed.
  Lemma right_at f t a i ta ti li : smem f f_at = true -> right a ta 8 -> right i ti li -> right (Node KCall t [Atom (PStr f); a; i]) t 8.
  Proof.
    intros Hf [p [_ [T1 S1]]] [q [_ [T2 S2]]].
    assert (Nf : f <> "matrix_selection_two_args") by (intros ->; discriminate Hf).
    exists (at_exp f p q). split; [unfold at_exp; repeat match goal with |- context[if ?b then _ else _] => destruct b end; discriminate|]. split.
    - intros vs F. apply fresh_call in F. inversion F as [|? ? F1 F']; subst. inversion F' as [|? ? F2 _]; subst. eapply txt_at; eauto.
    - intros I r E TL SV Fi dv P V. destruct (fits_call lo hi fns I _ TL r t f [a; i] dv Nf Fi P V) as [A [ds [Ds [M [Wi Ef]]]]].
      inversion A as [|? ? A1 A']; subst. inversion A' as [|? ? A2 _]; subst. destruct (at_value f ds dv Hf M) as [x [z [-> X]]].
      destruct (two _ _ _ _ Ds) as [d1 [d2 [Q [[Px Ex] [Py Ey]]]]]. injection Q as <- <-.
      apply X; [apply (S1 I r E TL SV)|apply (S2 I r E TL SV A2 (DZ z))]; assumption.
  Qed.

  Lemma range_value (len : bool) f ds v : smem f (if len then f_range_len else f_range) = true -> tmean f ds = Some v -> exists x i j, ds = [x; DZ i; DZ j] /\
    forall E p q u, npvalue W E p = Some (NA (arr_of x)) -> npvalue W E q = Some (NA (AS (EI i))) -> npvalue W E u = Some (NA (AS (EI (if len then i + j else j)))) ->
      npvalue W E (range_exp (is_col f) p q u) = Some (NA (arr_of v)).
  Proof.
    intros Hf M. apply smem_in in Hf. unfold f_range, f_range_len in Hf.
    destruct len; repeat (destruct Hf as [<-|Hf]); try destruct Hf;
      (destruct ds as [|[a|a|a|a|a] [|[b|b|b|b|b] [|[c|c|c|c|c] [|? ?]]]]; try discriminate M); cbn in M; try discriminate M; unfold rows in M; branches M; eexists _, _, _; (split; [reflexivity|]);
      intros E p q u V1 V2 V3; cbn -[nslice nindex Z.add]; rewrite V1, V2, V3; cbn [arr_of option_map]; injection M as <-; cbn [arr_of];
      repeat match goal with H : (_ && _) = true |- _ => apply andb_true_iff in H; destruct H end;
      repeat match goal with H : (_ <=? _)%Z = true |- _ => apply Z.leb_le in H end.
    - rewrite nslice_map, nslice_between by lia. reflexivity.
    - rewrite nslice_map, nslice_between by lia. reflexivity.
    - rewrite !map_map. do 3 f_equal. apply map_ext. intros s. rewrite nslice_map, nslice_between by lia. reflexivity.
    - rewrite nslice_map, nslice_between by lia. reflexivity.
    - rewrite nslice_map, nslice_between by lia. reflexivity.
    - rewrite !map_map. do 3 f_equal. apply map_ext. intros s. rewrite nslice_map, nslice_between by lia. reflexivity.
  Qed.
  Lemma range_np col p q u : range_exp col p q u <> PName "np".
  Proof. destruct col; discriminate. Qed.
  Lemma right_range f t a i j ta ti li tj lj : smem f f_range = true -> right a ta 8 -> right i ti li -> right j tj lj -> right (Node KCall t [Atom (PStr f); a; i; j]) t 8.
  Proof.
    intros Hf [p [_ [T1 S1]]] [q [_ [T2 S2]]] [u [_ [T3 S3]]].
    assert (Nf : f <> "matrix_selection_two_args") by (intros ->; discriminate Hf).
    exists (range_exp (is_col f) p q u). split; [apply range_np|]. split.
    - intros vs F. apply fresh_call in F. inversion F as [|? ? F1 F']; subst. inversion F' as [|? ? F2 F'']; subst. inversion F'' as [|? ? F3 _]; subst. eapply txt_range; eauto.
    - intros I r E TL SV Fi dv P V. destruct (fits_call lo hi fns I _ TL r t f [a; i; j] dv Nf Fi P V) as [A [ds [Ds [M [Wi Ef]]]]].
      inversion A as [|? ? A1 A']; subst. inversion A' as [|? ? A2 A'']; subst. inversion A'' as [|? ? A3 _]; subst.
      destruct (range_value false f ds dv Hf M) as [x [z [w [-> X]]]].
      destruct (three _ _ _ _ _ Ds) as [d1 [d2 [d3 [Q [[Px Ex] [[Py Ey] [Pz Ez]]]]]]]. injection Q as <- <- <-.
      apply X; [apply (S1 I r E TL SV)|apply (S2 I r E TL SV A2 (DZ z))|apply (S3 I r E TL SV A3 (DZ w))]; assumption.
  Qed.
  Lemma right_range_len f t a i j ta ti li tj lj : smem f f_range_len = true -> right a ta 8 -> right i ti li -> 5 <= li -> right j tj lj -> 6 <= lj ->
    right (Node KCall t [Atom (PStr f); a; i; j]) t 8.
  Proof.
    intros Hf [p [_ [T1 S1]]] [q [_ [T2 S2]]] Li [u [_ [T3 S3]]] Lj.
    assert (Nf : f <> "matrix_selection_two_args") by (intros ->; discriminate Hf).
    exists (range_exp (is_col f) p q (PBin OAdd q u)). split; [apply range_np|]. split.
    - intros vs F. apply fresh_call in F. inversion F as [|? ? F1 F']; subst. inversion F' as [|? ? F2 F'']; subst. inversion F'' as [|? ? F3 _]; subst. eapply txt_range_len; eauto.
    - intros I r E TL SV Fi dv P V. destruct (fits_call lo hi fns I _ TL r t f [a; i; j] dv Nf Fi P V) as [A [ds [Ds [M [Wi Ef]]]]].
      inversion A as [|? ? A1 A']; subst. inversion A' as [|? ? A2 A'']; subst. inversion A'' as [|? ? A3 _]; subst.
      destruct (range_value true f ds dv Hf M) as [x [z [w [-> X]]]].
      destruct (three _ _ _ _ _ Ds) as [d1 [d2 [d3 [Q [[Px Ex] [[Py Ey] [Pz Ez]]]]]]]. injection Q as <- <- <-.
      pose proof (S2 I r E TL SV A2 (DZ z) Py Ey) as V2. pose proof (S3 I r E TL SV A3 (DZ w) Pz Ez) as V3.
      apply X; [apply (S1 I r E TL SV); assumption|exact V2|]. cbn [npvalue]. rewrite V2, V3. cbn [arr_of nbin broadcast eop option_map]. unfold ei. unfold end_fits in Ef. rewrite Hf in Ef. rewrite (Wok _ Ef). reflexivity.
  Qed.

  (** ** selections *)
  Lemma var_of_inv e x : var_of e = Some x -> name_of e = Ok x.
  Proof. destruct e as [|k t [|[[]|] [|? ?]]]; try discriminate; destruct k; try discriminate. intros X. injection X as <-. reflexivity. Qed.
  Lemma ite_of_inv e cab : ite_of e = Some cab -> exists u c a b, cab = (c, a, b) /\ e = Node KIte u [c; a; b].
  Proof. destruct e as [|k t [|c [|a [|b [|? ?]]]]]; try discriminate; destruct k; try discriminate. intros X. injection X as <-. eauto 6. Qed.
  Lemma fun_of_inv e b ps : fun_of e = Some (b, ps) -> decl_body e = Ok b /\ decl_params e = ps.
  Proof. destruct e as [|k t [|a [|b' l]]]; try discriminate; destruct k; try discriminate; intros X; injection X as <- <-; auto. Qed.
  Lemma chosen_inv h p q c a b : chosen fns = Some (h, (p, q), (c, a, b)) ->
    exists s u x y, select_fn fns = Ok s /\ decl_body s = Ok (Node KIte u [c; a; b]) /\ decl_params s = [x; y] /\ name_of x = Ok p /\ name_of y = Ok q.
  Proof.
    unfold chosen, select_fn. destruct (filter _ (rev fns)) as [|[h' s] l]; [discriminate|]. destruct (fun_of s) as [[body [|x [|y [|? ?]]]]|] eqn:E1; try discriminate.
    destruct (ite_of body) as [cab|] eqn:E2; [|discriminate]. destruct (var_of x) eqn:E3; [|discriminate]. destruct (var_of y) eqn:E4; [|discriminate].
    intros X. injection X as <- <- <- ->. destruct (ite_of_inv _ _ E2) as [u [c' [a' [b' [Q ->]]]]]. injection Q as <- <- <-. destruct (fun_of_inv _ _ _ E1) as [F1 F2].
    exists s, u, x, y. repeat split; auto using var_of_inv.
  Qed.
  Lemma txt_select vs t m n s h p q c a b N0 rest tc lc ta la tb lb pc pa pb : chosen fns = Some (h, (p, q), (c, a, b)) ->
    (forall k, N0 <= k -> exists ss, mapR (fun a => x <- helper fns d k a vs ;; Ok (fst x)) (m :: n :: rest) = Ok ss) ->
    let vs' := dset (dset [] p m) q n in
    txt fns d vs' c tc lc pc -> txt fns d vs' a ta la pa -> txt fns d vs' b tb lb pb -> s = "matrix_selection_two_args" ->
    txt fns d vs (Node KCall t (Atom (PStr s) :: m :: n :: rest)) t 8 (PCall (np_fn "where") [pc; pa; pb]).
  Proof.
    intros Ch H vs' [N1 [s1 [t1 [H1 [X1 R1]]]]] [N2 [s2 [t2 [H2 [X2 R2]]]]] [N3 [s3 [t3 [H3 [X3 R3]]]]] ->.
    destruct (chosen_inv _ _ _ _ _ _ Ch) as [sl [u [vx [vy [Y1 [Y2 [Y3 [Y4 Y5]]]]]]]].
    exists (S (N0 + N1 + N2 + N3)), (("np." ++ "where" ++ "(") ++ (s1 ++ ", " ++ s2 ++ ", " ++ s3) ++ ")")%string, (np_head "where" ++ (t1 ++ Comma :: t2 ++ Comma :: t3) ++ [RP]). split; [|split].
    - intros k L. destruct k as [|k]; [lia|]. destruct (H k ltac:(lia)) as [ss E]. cbn [helper]. rewrite E. cbn [bindR].
      change (ends_with "matrix_selection_two_args" "matrix_selection_two_args") with true. cbv iota. rewrite Y1. cbn [bindR]. rewrite Y2. cbn [bindR]. rewrite Y3, Y4, Y5. cbn [bindR].
      fold vs'. rewrite (H1 k), (H2 k), (H3 k) by lia. cbn [bindR fst]. do 2 f_equal. strs.
    - apply (lexes_np "where" [s1; s2; s3] [t1; t2; t3]); [npstart|repeat constructor; assumption].
    - apply reads8; [reflexivity|]. apply (opened_np "where" [(t1, pc); (t2, pa); (t3, pb)]).
      constructor; [|constructor; [|constructor; [|constructor]]]; cbn [fst snd]; [apply (reads_at 0 lc _ _ R1)|apply (reads_at 0 la _ _ R2)|apply (reads_at 0 lb _ _ R3)]; lia.
  Qed.
  Lemma sel_grid (g : Z -> Z -> option Z) (G : Z * Z -> elt) : forall M N res, (forall pr z, g (fst pr) (snd pr) = Some z -> G pr = EI z) -> zipO (zipO g) M N = Some res ->
    map (map G) (prs M N) = map (map EI) res.
  Proof.
    intros M N res HG. unfold zipO, prs. generalize (combine M N). clear M N. intros l. revert res.
    induction l as [|[x y] l IH]; intros res E; cbn [mapO fst snd] in E; [injection E as <-; reflexivity|].
    destruct (mapO (fun p => g (fst p) (snd p)) (combine x y)) as [r|] eqn:Er; [|discriminate E].
    destruct (mapO _ l) as [rs|] eqn:El; [|discriminate E]. injection E as <-. cbn [map fst snd]. f_equal; [|apply IH; reflexivity].
    clear - HG Er. revert r Er. induction (combine x y) as [|pr l IH]; intros r Er; cbn [mapO] in Er; [injection Er as <-; reflexivity|].
    destruct (g (fst pr) (snd pr)) as [z|] eqn:Eg; [|discriminate Er]. destruct (mapO _ l) as [zs|] eqn:El; [|discriminate Er]. injection Er as <-.
    cbn [map]. f_equal; [apply HG, Eg|apply IH; reflexivity].
  Qed.
  Lemma zip_pairs M N pr : same_dim M N = true -> In pr (concat (prs M N)) -> In pr (combine (concat M) (concat N)).
  Proof.
    intros S0 H. pose proof (fun a b => same_rows M N a b S0) as R. apply same_dim_inv in S0. destruct S0 as [_ [_ [L _]]]. unfold prs in H.
    revert N L R H. induction M as [|a M' IH]; intros [|b N'] L R H; try discriminate L; [contradiction H|].
    cbn [combine map concat fst snd] in *. assert (Q : List.length a = List.length b) by (apply R; left; reflexivity).
    assert (C : forall (x y : list Z) u v, List.length x = List.length y -> combine (x ++ u) (y ++ v) = combine x y ++ combine u v).
    { clear. induction x as [|z x IH]; intros [|w y] u v L; try discriminate L; [reflexivity|]. cbn. f_equal. apply IH. injection L as L. exact L. }
    rewrite (C a b _ _ Q). apply in_app_or in H. apply in_or_app. destruct H as [H|H]; [left; exact H|right].
    apply IH; [injection L as L; exact L| |exact H]. intros x y X. apply R. right. exact X.
  Qed.
  Lemma some_pair M N : same_dim M N = true -> num_cols M <> 0 -> exists pr, In pr (concat (prs M N)).
  Proof.
    intros S0 C. apply same_dim_inv in S0. destruct S0 as [Rm [Rn [L Cn]]]. destruct M as [|[|x a] M']; [discriminate Rm|contradiction C; reflexivity|].
    destruct N as [|[|y b] N']; [discriminate Rn|cbn in Cn; discriminate Cn|]. exists (x, y). unfold prs. cbn. left. reflexivity.
  Qed.
  Lemma right_select t m n s ts h p q c a b lm ln tc lc ta la tb lb :
    chosen fns = Some (h, (p, q), (c, a, b)) -> p <> q -> right m (TMatrix TInt) lm -> right n (TMatrix TInt) ln ->
    (forall x, In x (var_names m ++ var_names n) -> x <> p /\ x <> q) ->
    bool_part p q (TMatrix TInt) lm (TMatrix TInt) ln c tc lc ->
    arith_part p q (TMatrix TInt) lm (TMatrix TInt) ln a ta la -> arith_part p q (TMatrix TInt) lm (TMatrix TInt) ln b tb lb ->
    (exists x, In x (var_names c ++ var_names a ++ var_names b)) ->
    right (Node KCall t [Atom (PStr "matrix_selection_two_args"); m; n; var s ts]) t 8.
  Proof.
    intros Ch Npq [pm [_ [T1 S1]]] [pn [_ [T2 S2]]] Fr Bc Ba Bb Us.
    assert (FR : forall e, (forall x, In x (var_names e) -> In x (var_names m ++ var_names n)) -> fresh e (dset (dset [] p m) q n)).
    { intros e He x Hx. rewrite (vs_is p q m n Npq). destruct (Fr x (He x Hx)) as [X1 X2]. cbn [dget].
      rewrite (proj2 (String.eqb_neq x p) X1), (proj2 (String.eqb_neq x q) X2). reflexivity. }
    assert (Tm := T1 _ (FR m ltac:(intros; apply in_or_app; auto))). assert (Tn := T2 _ (FR n ltac:(intros; apply in_or_app; auto))).
    destruct (bool_good W lo hi fns d Wok Dint p q lm ln m n pm pn Npq Tm Tn c tc lc Bc) as [pc [Tc Gc]].
    destruct (arith_good W lo hi fns d Wok Dint p q lm ln m n pm pn Npq Tm Tn a ta la Ba) as [pa [Ta Ga]].
    destruct (arith_good W lo hi fns d Wok Dint p q lm ln m n pm pn Npq Tm Tn b tb lb Bb) as [pb [Tb Gb]].
    exists (PCall (np_fn "where") [pc; pa; pb]). split; [discriminate|]. split.
    - intros vs F. apply fresh_call in F. inversion F as [|? ? F1 F']; subst. inversion F' as [|? ? F2 F'']; subst. inversion F'' as [|? ? F3 _]; subst.
      destruct (T1 vs F1) as [N1 [s1 [t1 [H1 _]]]]. destruct (T2 vs F2) as [N2 [s2 [t2 [H2 _]]]].
      apply (txt_select vs t m n _ h p q c a b (S (S (N1 + N2))) [var s ts] tc lc ta la tb lb pc pa pb Ch); auto.
      intros k L. exists [s1; s2; s]. cbn [mapR]. rewrite (H1 k), (H2 k) by lia. cbn [bindR fst].
      destruct k as [|[|k]]; [lia|lia|]. unfold var. cbn [helper mapR bindR np_arith np_rel]. rewrite (F3 s (or_introl eq_refl)). reflexivity.
    - intros I r E TL SV Fi dv P V. destruct Fi as [_ Fi]. cbn beta iota in Fi. change (String.eqb "matrix_selection_two_args" "matrix_selection_two_args") with true in Fi. cbv iota in Fi.
      destruct Fi as [Fm [Fn Sl]]. unfold select_fits in Sl. rewrite Ch in Sl. destruct Sl as [M [N [Em [En [Es [Sd [Nc Fe]]]]]]].
      pose proof (same_dim_inv M N Sd) as [Rm [Rn [Ln Cn]]].
      pose proof (S1 I r E TL SV Fm (DM M) Rm Em) as Vm. pose proof (S2 I r E TL SV Fn (DM N) Rn En) as Vn. cbn [arr_of] in Vm, Vn.
      pose proof (some_pair M N Sd Nc) as So.
      assert (C : ctx W fns pm pn I E M N) by (split; [exact TL|split; [exact Vm|split; [exact Vn|split; [exact Sd|exact So]]]]).
      assert (Fe' : forall pr, In pr (concat (prs M N)) -> Forall (fits lo hi I (fun _ _ => False) (bind2 p q (fst pr) (snd pr))) [c; a; b]).
      { intros [x y] Pr. apply Fe. exact (zip_pairs M N (x, y) Sd Pr). }
      assert (Fc : forall pr, In pr (concat (prs M N)) -> fits lo hi I (fun _ _ => False) (bind2 p q (fst pr) (snd pr)) c) by (intros pr Pr; specialize (Fe' pr Pr); inversion Fe'; assumption).
      assert (Fa : forall pr, In pr (concat (prs M N)) -> fits lo hi I (fun _ _ => False) (bind2 p q (fst pr) (snd pr)) a) by (intros pr Pr; specialize (Fe' pr Pr); inversion Fe' as [|? ? ? X]; inversion X; assumption).
      assert (Fb : forall pr, In pr (concat (prs M N)) -> fits lo hi I (fun _ _ => False) (bind2 p q (fst pr) (snd pr)) b) by (intros pr Pr; specialize (Fe' pr Pr); inversion Fe' as [|? ? ? X]; inversion X as [|? ? ? Y]; inversion Y; assumption).
      destruct (Gc I E M N C Fc) as [Rc [Vc [Sc Mc]]]. destruct (Ga I E M N C Fa) as [Ra [Va [Sa Ma]]]. destruct (Gb I E M N C Fb) as [Rb [Vb [Sb Mb]]].
      destruct (spread (prs M N) So (fun a b : elt => Some (a, b)) Ra Rb _ _ (fun pr => (on p q I a pr, on p q I b pr)) Sa Sb ltac:(reflexivity)) as [Rz [Bz [Sz Mz]]].
      destruct (spread (prs M N) So (fun c (pq : elt * elt) => Some (if etrue c then fst pq else snd pq)) Rc Rz _ _ (fun pr => if etrue (on p q I c pr) then on p q I a pr else on p q I b pr) Sc Sz ltac:(reflexivity)) as [R [B [Sr Mr]]].
      assert (Im : isM R = true).
      { rewrite Mr, Mz, Mc, Ma, Mb. destruct Us as [x Hx]. apply in_app_or in Hx. destruct Hx as [Hx|Hx]; [rewrite (bool_uses p q lm ln c tc lc Bc) by eauto; reflexivity|].
        apply in_app_or in Hx. destruct Hx as [Hx|Hx]; [rewrite (arith_uses p q lm ln a ta la Ba) by eauto|rewrite (arith_uses p q lm ln b tb lb Bb) by eauto]; destruct (prim tc), (prim ta); reflexivity. }
      destruct R as [| |R]; try discriminate Im. cbn [stands] in Sr.
      rewrite (call_value W E "where" [pc; pa; pb] [NA Rc; NA Ra; NA Rb]) by (repeat constructor; assumption).
      change (match broadcast (fun a b : elt => Some (a, b)) Ra Rb with
              | Some z => option_map NA (broadcast (fun c (p : elt * elt) => Some (if etrue c then fst p else snd p)) Rc z) | None => None end = Some (NA (arr_of dv))).
      rewrite Bz, B. cbn [option_map].
      set (g := fun x y => match eval I (bind2 p q x y) (Node KIte TInt [c; a; b]) with Some (VInt z) => Some z | _ => None end).
      assert (Hg : forall x y, i_call I h [VInt x; VInt y] = option_map VInt (g x y)).
      { intros x y. rewrite (tl_fun _ _ TL h p q c a b Ch x y). unfold g. cbn [eval].
        destruct (eval I (bind2 p q x y) c) as [[|[|]| | |]|]; try reflexivity.
        - destruct (arith_int p q lm ln Npq a ta la Ba I x y) as [z ->]. destruct z; reflexivity.
        - destruct (arith_int p q lm ln Npq b tb lb Bb I x y) as [z ->]. destruct z; reflexivity. }
      cbn [eval mapO] in V. rewrite Em, En in V. unfold var in V. cbn [eval] in V. unfold var in Es. cbn [eval] in Es. rewrite Es in V. rewrite (tl_sel _ _ TL h g M N Hg Sd) in V.
      destruct (zipO (zipO g) M N) as [res|] eqn:Er; [|discriminate V]. cbn [option_map] in V. injection V as V.
      assert (Rr : rectb res = true).
      { destruct dv; try discriminate V; cbn [proper emb] in *; try contradiction.
        - assert (L0 := mapO_len _ _ _ Er). rewrite combine_length, <- Ln, Nat.min_id in L0. destruct res as [|r0 res]; [destruct M; [discriminate Rm|discriminate L0]|]. destruct l; discriminate V.
        - rewrite (vm_inj _ _ V). exact P. }
      rewrite <- (emb_inj (DM res) dv Rr P V). cbn [arr_of]. do 2 f_equal. rewrite Sr, <- (sel_grid g (fun pr => elt_of (eval I (bind2 p q (fst pr) (snd pr)) (Node KIte TInt [c; a; b]))) M N res); [|intros pr z; unfold g; cbv beta; destruct (eval I (bind2 p q (fst pr) (snd pr)) (Node KIte TInt [c; a; b])) as [[]|]; try discriminate; intros X; injection X as <-; reflexivity|exact Er].
      f_equal. apply grid_ext. intros pr Pr. unfold on. cbn [eval].
      destruct (fits_val lo hi I _ _ _ (Fc pr Pr)) as [dc [Pc [_ Ec]]].
      destruct (bool_on lo hi p q lm ln I c tc lc Bc pr (Fc pr Pr)) as [bv Eb]. rewrite Eb. destruct bv; reflexivity.
  Qed.

  Theorem shown_right e t l : shown fns e t l -> right e t l.
  Proof.
    induction 1.
    - apply right_var; assumption.
    - apply right_lit.
    - apply right_blit.
    - eapply right_arith; eassumption.
    - eapply right_cmp; eassumption.
    - eapply right_and; eassumption.
    - eapply right_or; eassumption.
    - eapply right_not; eassumption.
    - eapply right_ite; eassumption.
    - destruct (infix_sum W lo hi Wok f H) as [o [swap [O R]]]. replace 5 with (op_level o) by (destruct O; subst; reflexivity).
      apply smem_in in H. unfold f_sum in H.
      apply (right_infix f o swap t a b ta la tb lb); try assumption; repeat (destruct H as [<-|H]); try destruct H; try discriminate; split; reflexivity.
    - destruct (infix_prod W lo hi Wok f H) as [o [swap [O R]]]. replace 6 with (op_level o) by (destruct O; subst; reflexivity).
      apply smem_in in H. unfold f_prod in H.
      apply (right_infix f o swap t a b ta la tb lb); try assumption; repeat (destruct H as [<-|H]); try destruct H; try discriminate; split; reflexivity.
    - eapply right_np1; eassumption.
    - eapply right_np2; eassumption.
    - eapply right_size; eassumption.
    - eapply right_at; eassumption.
    - eapply right_range; eassumption.
    - eapply right_range_len; eassumption.
    - eapply right_select; eassumption.
  Qed.
End Right.
