(** The tree of an expression determines its shape: a decoder (for the proof only). *)

From Coq Require Import DecimalString DecimalZ DecimalNat DecimalPos.
From Coq Require Import String Ascii List ZArith Bool Lia.
From Verif Require Import Ast Semantics Dict SexpModel SexpProofs SmtPrint SmtText SmtPrintProofs.
Import ListNotations.
Local Open Scope string_scope.
Local Open Scope list_scope.

Section Decode.
  Variable fn : string -> bool.
  Notation plain := (plain fn).

  Definition word_shape (w : string) : shape :=
    if match w with String c _ => is_digit c || Ascii.eqb c "-" | _ => false end
    then ShLit (match NilEmpty.int_of_string w with Some d => Some (VInt (Z.of_int d)) | None => None end)
    else if String.eqb w "true" then ShLit (Some (VBool true))
    else if String.eqb w "false" then ShLit (Some (VBool false))
    else if pre "set." w then ShCall ("set-" ++ skip 4 w)%string []
    else if pre "map_" w then ShCall ("map-" ++ skip 4 w)%string []
    else if fn w then ShCall w [] else ShVar w.

  (** up to the first underscore, and what follows it *)
  Fixpoint at_underscore (s : string) : string * option string :=
    match s with
    | "" => ("", None)
    | String c r => if Ascii.eqb c "_" then ("", Some r) else let p := at_underscore r in (String c (fst p), snd p)
    end.
  Definition head_shape (w : string) (l : list shape) : shape :=
    match op_kind w with
    | Some k => ShOp k l
    | None =>
        if pre "set." w then ShCall ("set-" ++ skip 4 w)%string l
        else if pre "map_" w then ShCall ("map-" ++ skip 4 w)%string l
        else if pre "tuple" w then
          match at_underscore (skip 5 w) with
          | (_, None) => ShTuple l
          | (n, Some i) =>
              match NilEmpty.uint_of_string n, NilEmpty.int_of_string (skip 3 i), l with
              | Some n, Some i, [t] => ShGet (Nat.of_uint n) (Z.of_int i) t
              | _, _, _ => ShLit None
              end
          end
        else if fn w then ShCall w l else ShApply w l
    end.

  Fixpoint decode (s : sexp) : shape :=
    match s with
    | SA w => word_shape w
    | SL (SA w :: l) =>
        if String.eqb w "as" then ShCall "set-create" []
        else if String.eqb w "let" then
          match l with
          | [SL [SL [SA x; a]]; b] => ShLet x (decode a) (decode b)
          | _ => ShLit None
          end
        else head_shape w (map decode l)
    | SL _ => ShLit None
    end.

  (** ** facts about names *)
  Lemma symbol_inv x : symbol x = true ->
    word x = true /\ match x with String c _ => is_digit c || Ascii.eqb c "-" | _ => false end = false /\
    String.eqb x "true" = false /\ String.eqb x "false" = false /\ String.eqb x "let" = false /\ String.eqb x "as" = false /\
    op_kind x = None /\ pre "set." x = false /\ pre "map_" x = false /\ pre "tuple" x = false.
  Proof.
    unfold symbol. intros H.
    apply andb_true_iff in H. destruct H as [H H5]. apply andb_true_iff in H. destruct H as [H H4]. apply andb_true_iff in H. destruct H as [H H3].
    apply andb_true_iff in H. destruct H as [H1 H2].
    apply negb_true_iff in H2, H3, H5. cbn [smem existsb] in H3.
    repeat match goal with [ H : _ || _ = false |- _ ] => apply orb_false_iff in H; destruct H end.
    destruct (op_kind x); [discriminate H4|]. repeat split; auto.
  Qed.
  Lemma prefix_refl_app p s : String.prefix p (p ++ s)%string = true.
  Proof. induction p as [|c p IH]; [destruct s; reflexivity|]. cbn. destruct (ascii_dec c c); [exact IH|congruence]. Qed.
  Lemma prefix_split p : forall s, String.prefix p s = true -> s = (p ++ skip (String.length p) s)%string.
  Proof.
    induction p as [|c p IH]; intros s H; [reflexivity|]. destruct s as [|d s]; [discriminate H|]. cbn in H.
    destruct (ascii_dec c d); [|discriminate H]. subst d. cbn. f_equal. apply IH, H.
  Qed.

  Lemma symbol_shape x : symbol x = true -> word_shape x = if fn x then ShCall x [] else ShVar x.
  Proof.
    intros H. destruct (symbol_inv x H) as [_ [A [B [C [_ [_ [_ [D [E _]]]]]]]]]. unfold word_shape. rewrite A, B, C, D, E. reflexivity.
  Qed.
  Lemma symbol_head x l : symbol x = true -> head_shape x l = if fn x then ShCall x l else ShApply x l.
  Proof.
    intros H. destruct (symbol_inv x H) as [_ [_ [_ [_ [_ [_ [A [B [C D]]]]]]]]]. unfold head_shape. rewrite A, B, C, D. reflexivity.
  Qed.
  Lemma op_kind_sym k o : op_sym k = Some o -> op_kind o = Some k /\ String.eqb o "as" = false /\ String.eqb o "let" = false.
  Proof. destruct k; cbn; intros E; try discriminate E; injection E as <-; repeat split. Qed.

  Lemma uint_digits u : NilEmpty.string_of_uint u = "" \/ exists c r, NilEmpty.string_of_uint u = String c r /\ is_digit c = true.
  Proof. destruct u; cbn; [left; reflexivity|right; eauto..]. Qed.
  Lemma int_shape z : word_shape (string_of_Z z) = ShLit (Some (VInt z)).
  Proof.
    assert (N : match string_of_Z z with String c _ => is_digit c || Ascii.eqb c "-" | _ => false end = true).
    { unfold string_of_Z. destruct z as [|p|p]; [reflexivity| |reflexivity]. cbn [Z.to_int NilEmpty.string_of_int].
      destruct (uint_digits (Pos.to_uint p)) as [E|[c [r [E D]]]]; [destruct (pos_uint_nonempty p E)|]. rewrite E, D. reflexivity. }
    unfold word_shape. rewrite N. unfold string_of_Z. rewrite NilEmpty.isi, DecimalZ.of_to. reflexivity.
  Qed.

  Lemma at_underscore_digits u s : at_underscore (NilEmpty.string_of_uint u ++ String "_" s) = (NilEmpty.string_of_uint u, Some s).
  Proof. induction u; cbn; try rewrite IHu; reflexivity. Qed.
  Lemma at_underscore_none u : snd (at_underscore (NilEmpty.string_of_uint u)) = None.
  Proof. induction u; cbn; auto. Qed.

  Lemma op_kind_tuple s : op_kind ("tuple" ++ s) = None.
  Proof. reflexivity. Qed.
  Lemma head_tuple s l : head_shape ("tuple" ++ s) l =
    match at_underscore s with
    | (_, None) => ShTuple l
    | (n, Some i) =>
        match NilEmpty.uint_of_string n, NilEmpty.int_of_string (skip 3 i), l with
        | Some n, Some i, [t] => ShGet (Nat.of_uint n) (Z.of_int i) t
        | _, _, _ => ShLit None
        end
    end.
  Proof.
    unfold head_shape. rewrite op_kind_tuple. change (pre "set." ("tuple" ++ s)) with false. change (pre "map_" ("tuple" ++ s)) with false.
    unfold pre. rewrite (prefix_refl_app "tuple" s). reflexivity.
  Qed.
  Lemma tuple_head n l : head_shape (tuple_name n) l = ShTuple l.
  Proof.
    unfold tuple_name. rewrite head_tuple. pose proof (at_underscore_none (Nat.to_uint n)) as A. unfold string_of_nat.
    destruct (at_underscore (NilEmpty.string_of_uint (Nat.to_uint n))) as [a b]. cbn in A. subst b. reflexivity.
  Qed.
  Lemma get_head n i t : head_shape (get_name n i) [t] = ShGet n i t.
  Proof.
    unfold get_name. rewrite head_tuple.
    unfold string_of_nat. change ("_get" ++ string_of_Z i)%string with (String "_" ("get" ++ string_of_Z i)).
    rewrite at_underscore_digits. rewrite NilEmpty.usu. cbn -[string_of_Z]. unfold string_of_Z. rewrite NilEmpty.isi.
    rewrite DecimalNat.Unsigned.of_to, DecimalZ.of_to. reflexivity.
  Qed.

  (** names of functions *)
  Lemma set_shape s l : head_shape ("set." ++ s) l = ShCall ("set-" ++ s)%string l /\ word_shape ("set." ++ s) = ShCall ("set-" ++ s)%string [].
  Proof.
    split.
    - unfold head_shape. change (op_kind ("set." ++ s)) with (@None kind). unfold pre. rewrite (prefix_refl_app "set." s). reflexivity.
    - unfold word_shape. unfold pre. rewrite (prefix_refl_app "set." s). reflexivity.
  Qed.
  Lemma map_shape s l : head_shape ("map_" ++ s) l = ShCall ("map-" ++ s)%string l /\ word_shape ("map_" ++ s) = ShCall ("map-" ++ s)%string [].
  Proof.
    split.
    - unfold head_shape. change (op_kind ("map_" ++ s)) with (@None kind). change (pre "set." ("map_" ++ s)) with false.
      unfold pre. rewrite (prefix_refl_app "map_" s). reflexivity.
    - unfold word_shape. change (pre "set." ("map_" ++ s)) with false. unfold pre. rewrite (prefix_refl_app "map_" s). reflexivity.
  Qed.

  Lemma decode_head w l : String.eqb w "as" = false -> String.eqb w "let" = false -> decode (SL (SA w :: l)) = head_shape w (map decode l).
  Proof. intros A B. cbn [decode]. rewrite A, B. reflexivity. Qed.
  Lemma map_decode l : Forall (fun e => plain e = true -> decode (tree e) = shape_of e) l -> forallb plain l = true ->
    map decode (map tree l) = map shape_of l.
  Proof.
    induction 1 as [|e l H F IH]; intros P; [reflexivity|]. cbn [forallb] in P. apply andb_true_iff in P. destruct P. cbn. f_equal; auto.
  Qed.

  Lemma fun_decode f l : (if pre "set-" f || pre "map-" f then word f else symbol f) = true -> fn f = true ->
    decode (match l with [] => SA (smt_name f) | _ => SL (SA (smt_name f) :: l) end) = ShCall f (map decode l).
  Proof.
    intros H Fn. unfold smt_name, pre in *. destruct (String.prefix "set-" f) eqn:E1.
    - pose proof (prefix_split _ _ E1) as F. cbn [String.length] in F. destruct (set_shape (skip 4 f) (map decode l)) as [A B].
      transitivity (ShCall ("set-" ++ skip 4 f)%string (map decode l)); [|rewrite <- F; reflexivity]. clear F. destruct l; [exact B|]. rewrite decode_head by reflexivity. exact A.
    - destruct (String.prefix "map-" f) eqn:E2.
      + pose proof (prefix_split _ _ E2) as F. cbn [String.length] in F. destruct (map_shape (skip 4 f) (map decode l)) as [A B].
        transitivity (ShCall ("map-" ++ skip 4 f)%string (map decode l)); [|rewrite <- F; reflexivity]. clear F. destruct l; [exact B|]. rewrite decode_head by reflexivity. exact A.
      + cbn [orb] in H. destruct l.
        * cbn [decode]. rewrite (symbol_shape f H), Fn. reflexivity.
        * destruct (symbol_inv f H) as [_ [_ [_ [_ [L [A _]]]]]]. rewrite decode_head by assumption.
          rewrite (symbol_head f _ H), Fn. reflexivity.
  Qed.

  Lemma call_decode k t f l : k = KCall \/ k = KTargetCall -> fn f = true -> call_ok f t l = true -> forallb plain l = true ->
    Forall (fun e => plain e = true -> decode (tree e) = shape_of e) l ->
    decode (tree (Node k t (Atom (PStr f) :: l))) = shape_of (Node k t (Atom (PStr f) :: l)).
  Proof.
    intros K Fn C P F. pose proof (map_decode l F P) as M.
    assert (T : tree (Node k t (Atom (PStr f) :: l)) = tree (Node KCall t (Atom (PStr f) :: l))) by (destruct K as [-> | ->]; reflexivity).
    assert (S0 : shape_of (Node k t (Atom (PStr f) :: l)) = shape_of (Node KCall t (Atom (PStr f) :: l))) by (destruct K as [-> | ->]; reflexivity).
    rewrite T, S0. clear T S0 K. cbn [tree shape_of op_sym find_op ops kind_eqb]. unfold call_ok in C.
    destruct (String.eqb_spec f "set-create") as [-> | N1].
    { destruct l; [|discriminate C]. reflexivity. }
    destruct (String.eqb_spec f "make-tuple") as [-> | N2].
    { rewrite decode_head by reflexivity. rewrite tuple_head, M. reflexivity. }
    destruct (String.eqb_spec f "list_eq") as [-> | N3].
    { rewrite decode_head by reflexivity. rewrite M. reflexivity. }
    cbn [orb] in C. destruct (String.eqb_spec f "tupleGet") as [-> | N4].
    { destruct l as [|e [|[|[] [] [|[[|i| |]|] [|]]] [|]]]; try discriminate C.
      rewrite decode_head by reflexivity. cbn [map] in M |- *. injection M as M _. rewrite get_head, M. reflexivity. }
    rewrite <- M, <- (fun_decode f (map tree l) C Fn). destruct l; reflexivity.
  Qed.

  Theorem decode_tree e : plain e = true -> decode (tree e) = shape_of e.
  Proof.
    induction e as [a|k t args IH] using expr_ind'; intros P; [discriminate P|].
    cbn [SmtText.plain] in P. destruct (op_sym k) as [o|] eqn:O.
    - cbn [tree shape_of]. rewrite O. destruct (op_kind_sym k o O) as [K [A B]]. rewrite decode_head by assumption.
      unfold head_shape. rewrite K, (map_decode args IH P). reflexivity.
    - destruct k; try discriminate P; try discriminate O.
      + destruct (is_var_inv fn _ P) as [k' [t' [x [E [_ [V Fn]]]]]]. injection E as <- <- ->. apply andb_true_iff in V. destruct V as [V _].
        cbn [tree shape_of op_sym find_op ops kind_eqb name_of decode]. rewrite (symbol_shape x V), Fn. reflexivity.
      + destruct (is_var_inv fn _ P) as [k' [t' [x [E [_ [V Fn]]]]]]. injection E as <- <- ->. apply andb_true_iff in V. destruct V as [V _].
        cbn [tree shape_of op_sym find_op ops kind_eqb name_of decode]. rewrite (symbol_shape x V), Fn. reflexivity.
      + destruct args as [|[a|] [|]]; try discriminate P. destruct (lit_val t a) as [v|] eqn:V; [|discriminate P].
        cbn [tree shape_of op_sym find_op ops kind_eqb decode]. unfold lit_word. rewrite V. destruct t, a as [s|z|b|]; try discriminate V; injection V as <-.
        * apply int_shape.
        * destruct (z =? 0)%Z; reflexivity.
        * destruct b; reflexivity.
      + destruct args as [|v [|a [|b [|]]]]; try discriminate P.
        apply andb_true_iff in P. destruct P as [P Pb]. apply andb_true_iff in P. destruct P as [Pv Pa].
        inversion IH as [|? ? _ IH']; subst. inversion IH' as [|? ? Ha IH'']; subst. inversion IH'' as [|? ? Hb _]; subst.
        cbn [tree shape_of op_sym find_op ops kind_eqb decode String.eqb Ascii.eqb Bool.eqb]. rewrite (Ha Pa), (Hb Pb). reflexivity.
      + destruct args as [|[[f| | |]|] l]; try discriminate P. apply andb_true_iff in P. destruct P as [P Pl]. apply andb_true_iff in P. destruct P as [Pf Pc].
        inversion IH as [|? ? _ IH']; subst. apply call_decode; auto.
      + destruct args as [|[[f| | |]|] l]; try discriminate P. apply andb_true_iff in P. destruct P as [P Pl]. apply andb_true_iff in P. destruct P as [Pf Pc].
        inversion IH as [|? ? _ IH']; subst. apply call_decode; auto.
      + destruct args as [|v l]; [discriminate P|]. apply andb_true_iff in P. destruct P as [Pv Pl].
        inversion IH as [|? ? _ IH']; subst. destruct (is_var_inv fn _ Pv) as [k' [t' [x [-> [_ [V Fn]]]]]].
        apply andb_true_iff in V. destruct V as [V _]. destruct (symbol_inv x V) as [_ [_ [_ [_ [L [A _]]]]]].
        cbn [tree shape_of op_sym find_op ops kind_eqb name_of]. rewrite decode_head by assumption.
        rewrite (symbol_head x _ V), Fn, (map_decode l IH' Pl). reflexivity.
      + cbn [tree shape_of op_sym find_op ops kind_eqb]. rewrite decode_head by reflexivity.
        rewrite tuple_head, (map_decode args IH P). reflexivity.
  Qed.
End Decode.
