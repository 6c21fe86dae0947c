(** The SMT-LIB value of the tree of an expression is the expression's value. *)

From Coq Require Import DecimalString DecimalZ DecimalNat DecimalPos.
From Coq Require Import String Ascii List ZArith Bool Lia.
From Verif Require Import Ast Semantics Dict SexpModel SexpProofs SmtPrint SmtText SmtPrintProofs SmtDecode.
Import ListNotations.
Local Open Scope string_scope.
Local Open Scope list_scope.

Section Meaning.
  Variable fn : string -> bool.
  Variable I : interp.
  Variable J : string -> list val -> option val.
  Hypothesis A : agree fn I J.
  Notation plain := (plain fn).

  (** only variables have values *)
  Definition vars_only (r : env) : Prop := forall x, r x <> None -> var_name x = true /\ fn x = false.

  Lemma vars_upd r x v : vars_only r -> var_name x = true -> fn x = false -> vars_only (upd r x v).
  Proof. intros H V F y. unfold upd. destruct (String.eqb_spec x y) as [<-|N]; auto. Qed.
  Lemma not_var r x : vars_only r -> var_name x = false \/ fn x = true -> r x = None.
  Proof. intros H N. destruct (r x) eqn:E; [|reflexivity]. destruct (H x) as [V F]; [congruence|]. destruct N; congruence. Qed.

  Lemma numeral_digit c s z : numeral (String c s) = Some z -> is_digit c = true.
  Proof.
    unfold numeral. cbn [NilEmpty.uint_of_string]. destruct (NilEmpty.uint_of_string s) as [d|]; [|cbn; discriminate].
    destruct c as [[] [] [] [] [] [] [] []]; cbn; intros E; try discriminate E; reflexivity.
  Qed.
  Lemma numeral_symbol x : symbol x = true -> numeral x = None.
  Proof.
    intros H. destruct (symbol_inv x H) as [_ [D _]]. destruct x as [|c s]; [reflexivity|].
    destruct (numeral (String c s)) eqn:E; [|reflexivity]. apply numeral_digit in E. rewrite E in D. discriminate D.
  Qed.
  Lemma numeral_Z z : (0 <= z)%Z -> numeral (string_of_Z z) = Some z.
  Proof.
    intros N. pose proof (Z_word z) as W. unfold numeral.
    assert (E : exists u, string_of_Z z = NilEmpty.string_of_uint u /\ Z.of_uint u = z).
    { destruct z as [|p|p]; [|exists (Pos.to_uint p)|lia].
      - exists (Decimal.D0 Decimal.Nil). split; reflexivity.
      - split; [reflexivity|]. exact (DecimalZ.of_to (Zpos p)). }
    destruct E as [u [E U]]. rewrite E in *. rewrite NilEmpty.usu. cbn [option_map].
    destruct (NilEmpty.string_of_uint u); [discriminate W|]. rewrite U. reflexivity.
  Qed.

  Lemma sval_head r f l : String.eqb f "let" = false -> String.eqb f "as" = false -> String.eqb f "ite" = false ->
    sval I J r (SL (SA f :: l)) =
    match mapO (sval I J r) l with
    | Some vs => match op_kind f with
                 | Some k => op_apply I k vs
                 | None => match r f with Some (VFn g) => i_call I g vs | Some _ => None | None => J f vs end
                 end
    | None => None
    end.
  Proof. intros E1 E2 E3. cbn [sval]. rewrite E1, E2, E3. reflexivity. Qed.

  Definition means (e : expr) : Prop := forall r, plain e = true -> smt_ok e = true -> vars_only r -> sval I J r (tree e) = eval I r e.

  Lemma args_mean r l : Forall means l -> forallb plain l = true -> forallb smt_ok l = true -> vars_only r ->
    mapO (sval I J r) (map tree l) = mapO (eval I r) l.
  Proof.
    intros F P K V. induction F as [|e l H F IH]; [reflexivity|]. cbn [forallb] in P, K. apply andb_true_iff in P, K. destruct P, K.
    cbn [map mapO]. rewrite (H r), IH; auto.
  Qed.

  Lemma sval_symbol r x : symbol x = true -> sval I J r (SA x) = match r x with Some v => Some v | None => J x [] end.
  Proof. intros H. destruct (symbol_inv x H) as [_ [_ [B [C _]]]]. cbn [sval]. rewrite (numeral_symbol x H), B, C. reflexivity. Qed.

  Lemma not_var_set s : var_name ("set." ++ s) = false.
  Proof. unfold var_name, symbol, pre. rewrite (prefix_refl_app "set." s). cbn [orb negb]. rewrite andb_false_r. reflexivity. Qed.
  Lemma not_var_map s : var_name ("map_" ++ s) = false.
  Proof. unfold var_name, symbol, pre. rewrite (prefix_refl_app "map_" s). rewrite orb_true_r. cbn [orb negb]. rewrite andb_false_r. reflexivity. Qed.
  Lemma not_var_tuple s : var_name ("tuple" ++ s) = false.
  Proof. unfold var_name, symbol, pre. rewrite (prefix_refl_app "tuple" s). rewrite orb_true_r. cbn [negb]. rewrite andb_false_r. reflexivity. Qed.

  (** a function of SMT-LIB that is applied or, without arguments, named *)
  Lemma sval_fun r g l vs : word g = true -> String.eqb g "let" = false -> String.eqb g "as" = false -> op_kind g = None ->
    numeral g = None -> String.eqb g "true" = false -> String.eqb g "false" = false ->
    r g = None -> mapO (sval I J r) l = Some vs ->
    sval I J r (match l with [] => SA g | _ => SL (SA g :: l) end) = J g vs.
  Proof.
    intros W N1 N2 N3 N4 N5 N6 R M.
    assert (N7 : String.eqb g "ite" = false) by (destruct (String.eqb_spec g "ite") as [-> |]; [discriminate N3|reflexivity]).
    destruct l as [|a l].
    - injection M as <-. cbn [sval]. rewrite N4, N5, N6, R. reflexivity.
    - rewrite sval_head, M, N3, R by assumption. reflexivity.
  Qed.
  Lemma sval_none r g l : String.eqb g "let" = false -> String.eqb g "as" = false -> String.eqb g "ite" = false ->
    mapO (sval I J r) l = None -> sval I J r (match l with [] => SA g | _ => SL (SA g :: l) end) = None.
  Proof. intros N1 N2 N3 M. destruct l as [|a l]; [discriminate M|]. rewrite sval_head, M by assumption. reflexivity. Qed.

  Lemma word_cons c s : word (String c s) = true -> all_word s = true.
  Proof. unfold word. cbn. intros H. apply andb_true_iff in H. tauto. Qed.

  (** the facts [sval_fun] needs, for the name of a function *)
  Lemma smt_name_facts r f : vars_only r -> (if pre "set-" f || pre "map-" f then word f else symbol f) = true -> fn f = true ->
    word (smt_name f) = true /\ String.eqb (smt_name f) "let" = false /\ String.eqb (smt_name f) "as" = false /\ op_kind (smt_name f) = None /\
    numeral (smt_name f) = None /\ String.eqb (smt_name f) "true" = false /\ String.eqb (smt_name f) "false" = false /\ r (smt_name f) = None.
  Proof.
    intros V H Fn. assert (W : word f = true) by (destruct (pre "set-" f || pre "map-" f); [exact H|apply symbol_word, H]).
    pose proof (smt_name_word f W) as W'. unfold smt_name in *. destruct (pre "set-" f) eqn:E1.
    - assert (N : numeral ("set." ++ skip 4 f) = None).
      { destruct (numeral ("set." ++ skip 4 f)) eqn:E; [|reflexivity]. apply numeral_digit in E. discriminate E. }
      repeat split; auto. apply not_var; auto using not_var_set.
    - destruct (pre "map-" f) eqn:E2.
      + assert (N : numeral ("map_" ++ skip 4 f) = None).
        { destruct (numeral ("map_" ++ skip 4 f)) eqn:E; [|reflexivity]. apply numeral_digit in E. discriminate E. }
        repeat split; auto. apply not_var; auto using not_var_map.
      + cbn [orb] in H. destruct (symbol_inv f H) as [_ [_ [B [C [L [D [O _]]]]]]]. repeat split; auto using numeral_symbol.
        apply not_var; auto.
  Qed.

  Lemma tuple_sval r vs l : vars_only r -> mapO (sval I J r) l = Some vs -> sval I J r (SL (SA (tuple_name (List.length l)) :: l)) = Some (VTuple vs).
  Proof.
    intros V M. rewrite sval_head by reflexivity. rewrite M. change (op_kind (tuple_name (List.length l))) with (@None kind).
    rewrite (not_var r (tuple_name (List.length l)) V (or_introl (not_var_tuple (string_of_nat (List.length l))))).
    assert (L : List.length l = List.length vs).
    { clear - M. revert vs M. induction l as [|a l IH]; cbn; intros vs M; [injection M as <-; reflexivity|].
      destruct (sval I J r a); [|discriminate M]. destruct (mapO (sval I J r) l); [|discriminate M]. injection M as <-. cbn. f_equal. auto. }
    rewrite L. apply (ag_tuple _ _ _ A).
  Qed.
  Lemma tuple_none r l : mapO (sval I J r) l = None -> sval I J r (SL (SA (tuple_name (List.length l)) :: l)) = None.
  Proof. intros M. rewrite sval_head by reflexivity. rewrite M. reflexivity. Qed.

  Lemma call_mean k t f l : k = KCall \/ k = KTargetCall -> Forall means l -> means (Node k t (Atom (PStr f) :: l)).
  Proof.
    intros K F r P S0 V.
    assert (T : tree (Node k t (Atom (PStr f) :: l)) = tree (Node KCall t (Atom (PStr f) :: l))) by (destruct K as [-> | ->]; reflexivity).
    assert (E : eval I r (Node k t (Atom (PStr f) :: l)) = match mapO (eval I r) l with Some vs => i_call I f vs | None => None end)
      by (destruct K as [-> | ->]; reflexivity).
    assert (P' : fn f && call_ok f t l && forallb plain l = true) by (destruct K as [-> | ->]; exact P).
    assert (S' : forallb smt_ok l = true) by (destruct K as [-> | ->]; exact S0).
    rewrite T, E. clear T E P S0 K. apply andb_true_iff in P'. destruct P' as [P' Pl]. apply andb_true_iff in P'. destruct P' as [Fn C].
    pose proof (args_mean r l F Pl S' V) as M. rewrite <- M.
    cbn [tree op_sym find_op ops kind_eqb]. unfold call_ok in C.
    destruct (String.eqb_spec f "set-create") as [-> | N1].
    { destruct l; [|discriminate C]. destruct (sort_tree t) as [s|]; [|discriminate C]. cbn [map mapO]. rewrite <- (ag_empty _ _ _ A). reflexivity. }
    destruct (String.eqb_spec f "make-tuple") as [-> | N2].
    { replace (List.length l) with (List.length (map tree l)) by apply map_length. destruct (mapO (sval I J r) (map tree l)) as [vs|] eqn:E.
      - rewrite (tuple_sval r vs _ V E), (ag_make _ _ _ A). reflexivity.
      - rewrite (tuple_none r _ E). reflexivity. }
    destruct (String.eqb_spec f "list_eq") as [-> | N3].
    { rewrite sval_head by reflexivity. destruct (mapO (sval I J r) (map tree l)) as [vs|]; [|reflexivity]. rewrite (ag_list_eq _ _ _ A). reflexivity. }
    cbn [orb] in C. destruct (String.eqb_spec f "tupleGet") as [-> | N4].
    { destruct l as [|e [|[|[] [] [|[[|i| |]|] [|]]] [|]]]; try discriminate C.
      cbn [forallb smt_ok] in S'. apply andb_true_iff in S'. destruct S' as [Se Si]. rewrite !andb_true_r, orb_false_r in Si. apply Z.leb_le in Si.
      set (n := match tuple_size e with Some n => n | None => 0 end).
      rewrite sval_head by reflexivity. rewrite M. cbn [mapO map eval lit_val].
      cbn [forallb] in Pl. apply andb_true_iff in Pl. destruct Pl as [Pe _].
      inversion F as [|? ? He _]; subst. rewrite (He r Pe Se V). destruct (eval I r e) as [v|]; [|reflexivity].
      change (op_kind (get_name n i)) with (@None kind). rewrite (not_var r (get_name n i) V (or_introl (not_var_tuple (string_of_nat n ++ "_get" ++ string_of_Z i)))).
      apply (ag_get _ _ _ A). }
    destruct (smt_name_facts r f V C Fn) as [W [B1 [B2 [B3 [B4 [B5 [B6 B7]]]]]]].
    replace (match l with [] => SA (smt_name f) | _ :: _ => SL (SA (smt_name f) :: map tree l) end)
      with (match map tree l with [] => SA (smt_name f) | _ => SL (SA (smt_name f) :: map tree l) end) by (destruct l; reflexivity).
    destruct (mapO (sval I J r) (map tree l)) as [vs|] eqn:E.
    - rewrite (sval_fun r (smt_name f) (map tree l) vs) by assumption. apply (ag_fun _ _ _ A). exact Fn.
    - apply sval_none; auto. destruct (String.eqb_spec (smt_name f) "ite") as [X|]; [rewrite X in B3; discriminate B3|reflexivity].
  Qed.

  Lemma op_mean k o t args : op_sym k = Some o -> k <> KIte -> Forall means args -> means (Node k t args).
  Proof.
    intros O N F r P K V. cbn [SmtText.plain] in P. rewrite O in P.
    assert (Kargs : forallb smt_ok args = true) by (cbn [smt_ok] in K; apply andb_true_iff in K; tauto).
    pose proof (args_mean r args F P Kargs V) as M.
    cbn [tree]. rewrite O. destruct (op_kind_sym k o O) as [Ko [B1 B2]].
    assert (B3 : String.eqb o "ite" = false).
    { destruct (String.eqb_spec o "ite") as [-> |]; [|reflexivity]. cbn in Ko. congruence. }
    rewrite sval_head by assumption. rewrite M, Ko.
    assert (L : forall vs, mapO (eval I r) args = Some vs -> List.length vs = List.length args).
    { clear. induction args as [|a l IH]; cbn; intros vs M; [injection M as <-; reflexivity|].
      destruct (eval I r a); [|discriminate M]. destruct (mapO (eval I r) l); [|discriminate M]. injection M as <-. cbn. f_equal. auto. }
    cbn [smt_ok] in K. apply andb_true_iff in K. destruct K as [K _].
    assert (E : eval I r (Node k t args) = match mapO (eval I r) args with Some vs => op_val I k vs | None => None end).
    { destruct k; try discriminate O; try reflexivity. congruence. }
    rewrite E. destruct (mapO (eval I r) args) as [vs|]; [|reflexivity]. specialize (L vs eq_refl).
    unfold op_apply. destruct k; try reflexivity; try discriminate O; destruct vs as [|v [|]]; try reflexivity; cbn [List.length] in L; try (rewrite <- L in K; discriminate K).
    destruct v; reflexivity.
  Qed.

  Theorem tree_means e : means e.
  Proof.
    induction e as [a|k t args IH] using expr_ind'; intros r P; [discriminate P|].
    destruct (op_sym k) as [o|] eqn:O.
    - destruct (kind_eqb k KIte) eqn:Ki.
      + destruct k; try discriminate Ki. intros K V. cbn [SmtText.plain op_sym find_op ops kind_eqb] in P.
        destruct args as [|c [|a [|b [|]]]]; try reflexivity.
        cbn [smt_ok forallb] in K, P. repeat (apply andb_true_iff in K; destruct K as [? K]). repeat (apply andb_true_iff in P; destruct P as [? P]).
        inversion IH as [|? ? Hc IH']; subst. inversion IH' as [|? ? Ha IH'']; subst. inversion IH'' as [|? ? Hb _]; subst.
        cbn [tree op_sym find_op ops kind_eqb map sval String.eqb Ascii.eqb Bool.eqb eval].
        rewrite (Hc r), (Ha r), (Hb r) by assumption. reflexivity.
      + intros K V. apply (op_mean k o t args O); auto. intros ->. discriminate Ki.
    - cbn [SmtText.plain] in P. rewrite O in P. destruct k; try discriminate P; try discriminate O; intros K V.
      + destruct (is_var_inv fn _ P) as [k' [t' [x [E [_ [N Fn]]]]]]. injection E as <- <- ->. pose proof N as N'. apply andb_true_iff in N'. destruct N' as [N' _].
        cbn [tree op_sym find_op ops kind_eqb name_of eval]. rewrite (sval_symbol r x N'), (ag_var _ _ _ A x [] Fn N). destruct (r x); reflexivity.
      + destruct (is_var_inv fn _ P) as [k' [t' [x [E [_ [N Fn]]]]]]. injection E as <- <- ->. pose proof N as N'. apply andb_true_iff in N'. destruct N' as [N' _].
        cbn [tree op_sym find_op ops kind_eqb name_of eval]. rewrite (sval_symbol r x N'), (ag_var _ _ _ A x [] Fn N). destruct (r x); reflexivity.
      + destruct args as [|[a|] [|]]; try discriminate P. destruct (lit_val t a) as [v|] eqn:L; [|discriminate P].
        cbn [tree op_sym find_op ops kind_eqb eval]. unfold lit_word. rewrite L. destruct t, a as [s|z|b|]; try discriminate L; injection L as <-.
        * cbn [smt_ok forallb ty_eqb] in K. rewrite orb_false_r, !andb_true_r in K. apply Z.leb_le in K. cbn [sval]. rewrite (numeral_Z z K). reflexivity.
        * destruct (z =? 0)%Z; reflexivity.
        * destruct b; reflexivity.
      + destruct args as [|v [|a [|b [|]]]]; try discriminate P.
        apply andb_true_iff in P. destruct P as [P Pb]. apply andb_true_iff in P. destruct P as [Pv Pa].
        inversion IH as [|? ? _ IH']; subst. inversion IH' as [|? ? Ha IH'']; subst. inversion IH'' as [|? ? Hb _]; subst.
        cbn [smt_ok forallb] in K. repeat (apply andb_true_iff in K; destruct K as [? K]).
        destruct (is_var_inv fn _ Pv) as [k' [t' [x [-> [Kx [N Fn]]]]]].
        cbn [tree op_sym find_op ops kind_eqb name_of sval String.eqb Ascii.eqb Bool.eqb].
        rewrite (Ha r) by assumption. destruct Kx as [-> | ->]; cbn [eval].
        * destruct (eval I r a) as [va|]; [|reflexivity]. cbn [bind fold_right fst snd]. apply Hb; auto. apply vars_upd; assumption.
        * match goal with [ H : false = true |- _ ] => discriminate H end.
      + destruct args as [|[[f| | |]|] l]; try discriminate P. inversion IH as [|? ? _ IH']; subst. apply call_mean; auto.
      + destruct args as [|[[f| | |]|] l]; try discriminate P. inversion IH as [|? ? _ IH']; subst. apply call_mean; auto.
      + destruct args as [|v l]; [discriminate P|]. apply andb_true_iff in P. destruct P as [Pv Pl].
        inversion IH as [|? ? _ IH']; subst. destruct (is_var_inv fn _ Pv) as [k' [t' [x [-> [Kx [N Fn]]]]]].
        pose proof N as N'. apply andb_true_iff in N'. destruct N' as [N' _]. destruct (symbol_inv x N') as [_ [_ [_ [_ [L [B [O' _]]]]]]].
        assert (B3 : String.eqb x "ite" = false) by (destruct (String.eqb_spec x "ite") as [-> |]; [discriminate O'|reflexivity]).
        cbn [tree op_sym find_op ops kind_eqb name_of]. rewrite sval_head by assumption.
        cbn [smt_ok forallb andb] in K. apply andb_true_iff in K. destruct K as [_ K].
        rewrite (args_mean r l IH' Pl K V), O'. cbn [eval mapO].
        assert (E : eval I r (Node k' t' [Atom (PStr x)]) = r x) by (destruct Kx as [-> | ->]; reflexivity).
        change (match k' with KVar | KNonTerm => _ | _ => _ end) with (eval I r (Node k' t' [Atom (PStr x)])).
        rewrite E. destruct (r x) as [w|] eqn:Rx.
        * destruct (mapO (eval I r) l) as [vs|]; destruct w; reflexivity.
        * destruct (mapO (eval I r) l) as [vs|]; [exact (ag_var _ _ _ A x vs Fn N)|reflexivity].
      + cbn [tree op_sym find_op ops kind_eqb]. cbn [smt_ok] in K. apply andb_true_iff in K. destruct K as [_ K].
        pose proof (args_mean r args IH P K V) as M. replace (List.length args) with (List.length (map tree args)) by apply map_length.
        cbn [eval]. rewrite <- M. destruct (mapO (sval I J r) (map tree args)) as [vs|] eqn:E.
        * exact (tuple_sval r vs _ V E).
        * exact (tuple_none r _ E).
  Qed.
End Meaning.
