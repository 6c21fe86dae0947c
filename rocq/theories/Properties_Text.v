(** C14: SMT text is unambiguous.  C50: SMT text means what the expression means.

    [read_smt] reads SMT-LIB text into s-expressions; [tree e] (SmtText.v) is the
    s-expression that stands for [e], [shape_of e] the structure of [e] without types,
    [plain fn e] says that [e] is an expression (not a definition) whose names do not
    clash with SMT-LIB's, where [fn] separates names of functions from names of
    variables; [sval] is the value of an s-expression in SMT-LIB. *)

From Coq Require Import String Ascii List ZArith Bool.
From Coq Require Import DecimalString DecimalZ.
From Verif Require Import Ast Semantics Dict SexpModel SexpProofs SmtPrint SmtText SmtPrintProofs SmtDecode SmtMeaning.
Import ListNotations.
Local Open Scope string_scope.
Local Open Scope list_scope.

(** the s-expressions of a text, words included *)
Definition read_smt (s : string) : option (list sexp) := parse true (tokens s) [] [].

Lemma read_reads s t : reads s (toks t) -> read_smt s = Some [t].
Proof.
  intros R. unfold read_smt. rewrite (tokens_reads _ _ R).
  pose proof (parse_lists true [t] []) as H. cbn [flat_map] in H. rewrite app_nil_r in H. rewrite H; [reflexivity|].
  cbn. destruct t; reflexivity.
Qed.

(** ** C14 *)

(** Printing succeeds, and the text is exactly one balanced s-expression: the one with
    the operator and operands of the expression. *)
Theorem C14_single_tree fn e : plain fn e = true ->
  exists s, to_smt e = Ok s /\ read_smt s = Some [tree e].
Proof. intros P. destruct (prints_tree fn e P) as [s [E R]]. exists s. split; [exact E|]. apply read_reads, R. Qed.
Print Assumptions C14_single_tree.

(** Expressions with the same text have the same structure. *)
Theorem C14_unambiguous fn e1 e2 s : plain fn e1 = true -> plain fn e2 = true ->
  to_smt e1 = Ok s -> to_smt e2 = Ok s -> shape_of e1 = shape_of e2.
Proof.
  intros P1 P2 E1 E2. destruct (prints_tree fn e1 P1) as [s1 [E1' R1]]. destruct (prints_tree fn e2 P2) as [s2 [E2' R2]].
  assert (s1 = s) by congruence. assert (s2 = s) by congruence. subst s1 s2.
  apply read_reads in R1, R2. assert (T : tree e1 = tree e2) by congruence.
  rewrite <- (decode_tree fn e1 P1), <- (decode_tree fn e2 P2), T. reflexivity.
Qed.
Print Assumptions C14_unambiguous.

(** The same for the text of whole function definitions and axioms. *)
Definition decl_tree (a : expr) : option sexp :=
  match a with Node KVar t [Atom (PStr x)] => option_map (fun s => SL [SA x; s]) (sort_tree t) | _ => None end.
Definition vars_ok (l : list expr) : bool := forallb (fun a => word (name_of a)) l.

Lemma decl_reads a d : decl_tree a = Some d -> word (name_of a) = true -> exists s, smt_decl a = Ok s /\ reads s (toks d).
Proof.
  destruct a as [|[] t [|[[x| | |]|] [|]]]; try discriminate. cbn. intros E W. destruct (sort_tree t) as [st|] eqn:T; [|discriminate E].
  injection E as <-. destruct (smt_type_ok t st T) as [w [Ew R]]. rewrite Ew. eexists. split; [reflexivity|].
  rewrite <- (toks_list x [st]). refine (reads_list x [w] [toks st] (reads_word x W) _). repeat constructor. exact R.
Qed.
Lemma decls_read l : forall ds, mapO decl_tree l = Some ds -> vars_ok l = true ->
  exists ss, mapR smt_decl l = Ok ss /\ Forall2 reads ss (map toks ds).
Proof.
  induction l as [|a l IH]; cbn [mapO mapR vars_ok forallb]; intros ds M V.
  - injection M as <-. exists []. split; [reflexivity|constructor].
  - apply andb_true_iff in V. destruct V as [V1 V2].
    destruct (decl_tree a) as [d|] eqn:D; [|discriminate M]. destruct (mapO decl_tree l) as [ds'|]; [|discriminate M]. injection M as <-.
    destruct (decl_reads a d D V1) as [s [E R]]. destruct (IH ds' eq_refl V2) as [ss [Es Rs]].
    exists (s :: ss). rewrite E. cbn. rewrite Es. split; [reflexivity|]. constructor; assumption.
Qed.
Lemma reads_sl ss l : Forall2 reads ss (map toks l) -> reads ("(" ++ join " " ss ++ ")") (toks (SL l)).
Proof. intros F. cbn [toks]. rewrite flat_map_concat_map. apply reads_paren, reads_join, F. Qed.

Theorem C14_definition fn f rt body args d ds r :
  mkFn KFnDeclRec (Atom (PStr f)) rt body args = Ok d -> word f = true -> vars_ok args = true ->
  mapO decl_tree args = Some ds -> sort_tree rt = Some r -> plain fn body = true ->
  exists s, smt_define d = Ok s /\ read_smt s = Some [SL [SA "define-fun-rec"; SA f; SL ds; r; tree body]].
Proof.
  intros M W V D R P. unfold mkFn in M. destruct (mapR type_of args) as [ts|]; [|discriminate M]. injection M as <-.
  destruct body as [a|k t l]; [discriminate P|].
  destruct (decls_read args ds D V) as [ss [E1 R1]]. destruct (smt_type_ok rt r R) as [w [E2 R2]].
  destruct (prints_tree fn _ P) as [b [E3 R3]]. unfold smt_define. cbn [fn_return_type bindR]. rewrite E1, E2, E3. cbn [bindR].
  eexists. split; [reflexivity|]. apply read_reads.
  pose proof (reads_sep (ascii_of_nat 10) w b (toks r) (toks (tree (Node k t l))) eq_refl R2 R3) as X1.
  pose proof (reads_space _ _ _ _ (reads_sl ss ds R1) X1) as X2.
  pose proof (reads_space f _ [TW f] _ (reads_word f W) X2) as X3.
  pose proof (reads_space "define-fun-rec" _ [TW "define-fun-rec"] _ (reads_word "define-fun-rec" eq_refl) X3) as X4.
  apply reads_paren in X4. refine (reads_eq _ _ _ (eq_ind _ (fun s => reads s _) X4 _ _) _).
  - unfold newline. repeat (rewrite !app_s; cbn [String.append]). reflexivity.
  - cbn [toks flat_map app]. rewrite app_nil_r, <- !app_assoc. reflexivity.
Qed.
Print Assumptions C14_definition.

Theorem C14_axiom fn body vars a ds :
  mkAxiom (body :: vars) = Ok a -> vars_ok vars = true -> mapO decl_tree vars = Some ds -> plain fn body = true ->
  exists s, smt_axiom a = Ok s /\ read_smt s = Some [SL [SA "assert"; SL [SA "forall"; SL ds; tree body]]].
Proof.
  intros M V D P. injection M as <-. destruct (decls_read vars ds D V) as [ss [E1 R1]]. destruct (prints_tree fn _ P) as [b [E3 R3]].
  unfold smt_axiom. rewrite E1, E3. cbn [bindR]. eexists. split; [reflexivity|]. apply read_reads.
  assert (X0 : reads ("(" ++ (String " " (join " " ss) ++ " ") ++ ")") (toks (SL ds))).
  { cbn [toks]. rewrite flat_map_concat_map. apply reads_paren. change (String " " (join " " ss) ++ " ")%string with (String " " (join " " ss ++ " ")).
    apply reads_blank; [reflexivity|]. rewrite <- (app_nil_r (concat (map toks ds))).
    apply (reads_space (join " " ss) "" _ [] (reads_join _ _ R1) reads_nil). }
  pose proof (reads_space b "" _ [] R3 reads_nil) as X1. rewrite app_nil_r in X1.
  pose proof (reads_space _ _ _ _ X0 X1) as X2.
  pose proof (reads_paren _ _ (reads_space "forall" _ [TW "forall"] _ (reads_word "forall" eq_refl) X2)) as X3.
  pose proof (reads_paren _ _ (reads_space "assert" _ [TW "assert"] _ (reads_word "assert" eq_refl) X3)) as X4.
  refine (reads_eq _ _ _ (eq_ind _ (fun s => reads s _) X4 _ _) _).
  - repeat (rewrite !app_s; cbn [String.append]). reflexivity.
  - cbn [toks flat_map app]. rewrite !app_nil_r, <- !app_assoc. cbn [app]. reflexivity.
Qed.
Print Assumptions C14_axiom.

(** A case: [let y = f(x) - (-3) in if y <= 0 and list_eq(g, set-create()) then (x, y)
    else make-tuple(h(y), tupleGet(p, 1))]. *)
Definition ex_fn (s : string) : bool := smem s ["f"; "list_eq"; "set-create"; "make-tuple"; "tupleGet"; "set-insert"].
Definition ex_x := mkVar "x" TInt.
Definition ex_y := mkVar "y" TInt.
Definition ex_call f t l := Node KCall t (Atom (PStr f) :: l).
Definition ex_tree (n : Z) : expr :=
  Node KLet (TTuple [TInt; TInt]) [ex_y; Node KSub TInt [ex_call "f" TInt [ex_x]; IntLit n];
    Node KIte (TTuple [TInt; TInt]) [
      Node KAnd TBool [Node KLe TBool [ex_y; IntLit 0]; ex_call "list_eq" TBool [mkVar "g" (TSet TInt); ex_call "set-create" (TSet TInt) []]];
      Node KTupleExpr (TTuple [TInt; TInt]) [ex_x; ex_y];
      ex_call "make-tuple" (TTuple [TInt; TInt]) [Node KCallValue TInt [mkVar "h" (TFn [TInt; TInt]); ex_y];
                                                  ex_call "tupleGet" TInt [mkVar "p" (TTuple [TInt; TInt]); IntLit 1]]]].
Example C14_example : plain ex_fn (ex_tree (-3)) = true /\
  to_smt (ex_tree (-3)) = Ok "(let ((y (- (f x) -3))) (ite (and (<= y 0) (= g (as set.empty (Set Int)))) (tuple2 x y) (tuple2 (h y) (tuple2_get1 p))))".
Proof. split; reflexivity. Qed.
Example C14_example_definition :
  exists d s, mkFn KFnDeclRec (Atom (PStr "g")) (TMatrix TInt) (mkVar "m" (TMatrix TInt)) [mkVar "m" (TMatrix TInt); mkVar "t" (TTuple [TInt; TList TBool])] = Ok d /\
  smt_define d = Ok s /\
  read_smt s = Some [SL [SA "define-fun-rec"; SA "g";
                         SL [SL [SA "m"; SL [SA "MLList"; SL [SA "MLList"; SA "Int"]]];
                             SL [SA "t"; SL [SA "Tuple2"; SA "Int"; SL [SA "MLList"; SA "Bool"]]]];
                         SL [SA "MLList"; SL [SA "MLList"; SA "Int"]]; SA "m"]].
Proof. do 2 eexists. split; [reflexivity|]. split; reflexivity. Qed.

(** Without the condition on names the property is false: a variable whose name begins
    with "set-" is renamed, but only as an argument of a call; so is a function whose
    name begins with "map-"; a call without arguments prints as a variable. *)
Theorem C14_refuted_names :
  (exists e1 e2 s, to_smt e1 = Ok s /\ to_smt e2 = Ok s /\ shape_of e1 <> shape_of e2 /\
    e1 = ex_call "f" TInt [mkVar "set-a" TInt] /\ e2 = ex_call "f" TInt [mkVar "set.a" TInt]) /\
  (exists e1 e2 s, to_smt e1 = Ok s /\ to_smt e2 = Ok s /\ shape_of e1 <> shape_of e2 /\
    e1 = ex_call "map-reduce" TInt [ex_x] /\ e2 = ex_call "map_reduce" TInt [ex_x]) /\
  (exists e1 e2 s, to_smt e1 = Ok s /\ to_smt e2 = Ok s /\ shape_of e1 <> shape_of e2 /\
    e1 = ex_call "f" TInt [] /\ e2 = mkVar "f" TInt).
Proof.
  repeat split; do 3 eexists; (split; [|split; [|split; [|split; [reflexivity|reflexivity]]]]);
    [reflexivity|reflexivity|vm_compute; discriminate|reflexivity|reflexivity|vm_compute; discriminate|reflexivity|reflexivity|vm_compute; discriminate].
Qed.
Print Assumptions C14_refuted_names.

(** And the same variable has two texts: [set-a] where it stands alone or below an
    operator, [set.a] as the argument of a call. *)
Theorem C14_refuted_variable :
  to_smt (Node KAdd TInt [mkVar "set-a" TInt; ex_call "f" TInt [mkVar "set-a" TInt]]) = Ok "(+ set-a (f set.a))".
Proof. reflexivity. Qed.
Print Assumptions C14_refuted_variable.

(** A three-dimensional tensor is declared as a list of numbers. *)
Theorem C14_refuted_tensor : smt_type (TTensor3D TInt) = smt_type (TList TInt).
Proof. reflexivity. Qed.
Print Assumptions C14_refuted_tensor.

(** ** C50 *)

(** The text, read as SMT-LIB, has the value of the expression (or none, if it has
    none) under every assignment of values to variables. *)
Theorem C50_text_means_partial fn I J e : agree fn I J -> plain fn e = true -> smt_ok e = true ->
  exists s t, to_smt e = Ok s /\ read_smt s = Some [t] /\ forall r, vars_only fn r -> sval I J r t = eval I r e.
Proof.
  intros A P K. destruct (C14_single_tree fn e P) as [s [E R]]. exists s, (tree e). split; [exact E|]. split; [exact R|].
  intros r V. exact (tree_means fn I J A e r P K V).
Qed.
Print Assumptions C50_text_means_partial.

(** So an expression is valid exactly when its text is. *)
Theorem C50_validity_partial fn I J e s : agree fn I J -> plain fn e = true -> smt_ok e = true -> to_smt e = Ok s ->
  exists t, read_smt s = Some [t] /\
    ((exists r, vars_only fn r /\ eval I r e = Some (VBool false)) <-> (exists r, vars_only fn r /\ sval I J r t = Some (VBool false))).
Proof.
  intros A P K E. destruct (C50_text_means_partial fn I J e A P K) as [s' [t [E' [R M]]]].
  assert (s' = s) by congruence. subst s'. exists t. split; [exact R|].
  split; intros [r [V H]]; exists r; (split; [exact V|]); [rewrite M|rewrite <- M]; assumption.
Qed.
Print Assumptions C50_validity_partial.

(** A case: functions that meet [agree]. *)
Definition ex_I : interp := {|
  i_div := fun a b => Some (Z.div a b); i_mod := fun a b => Some (Z.modulo a b);
  i_call := fun f vs =>
    if String.eqb f "make-tuple" then Some (VTuple vs)
    else if String.eqb f "list_eq" then match vs with [a; b] => Some (VBool (val_eqb a b)) | _ => None end
    else if String.eqb f "tupleGet" then match vs with [VTuple l; VInt i] => nth_error l (Z.to_nat i) | _ => None end
    else if String.eqb f "set-create" then match vs with [] => Some (VList []) | _ => None end
    else if String.eqb f "f" then match vs with [VInt a] => Some (VInt (a * a)) | _ => None end
    else None |}.
Definition ex_J (g : string) (vs : list val) : option val :=
  if ex_fn g then i_call ex_I g vs
  else if String.eqb g "set.empty" || String.eqb g "set.create" then i_call ex_I "set-create" vs
  else if pre "tuple" g then
    match at_underscore (skip 5 g) with
    | (_, None) => Some (VTuple vs)
    | (_, Some i) => match NilEmpty.int_of_string (skip 3 i), vs with Some d, [v] => i_call ex_I "tupleGet" [v; VInt (Z.of_int d)] | _, _ => None end
    end
  else None.
Lemma digits_not_fn s : ex_fn ("tuple" ++ string_of_nat s) = false.
Proof.
  unfold ex_fn. cbn [smem existsb].
  assert (H : String.eqb ("tuple" ++ string_of_nat s) "tupleGet" = false).
  { apply String.eqb_neq. intros C. injection C as C.
    pose proof (nat_word s) as W. unfold string_of_nat in C. destruct (uint_digits (Nat.to_uint s)) as [E|[c [r [E D]]]]; rewrite E in C; [discriminate C|].
    injection C as -> _. discriminate D. }
  rewrite H. reflexivity.
Qed.
Lemma get_not_fn n i : ex_fn (get_name n i) = false.
Proof.
  unfold ex_fn, get_name. cbn [smem existsb].
  assert (H : String.eqb ("tuple" ++ string_of_nat n ++ "_get" ++ string_of_Z i) "tupleGet" = false).
  { apply String.eqb_neq. intros C. injection C as C. unfold string_of_nat in C.
    destruct (uint_digits (Nat.to_uint n)) as [E|[c [r [E D]]]]; rewrite E in C; [discriminate C|]. injection C as -> _. discriminate D. }
  rewrite H. reflexivity.
Qed.
Example C50_example_agree : agree ex_fn ex_I ex_J.
Proof.
  split.
  - intros f vs F. unfold ex_fn in F. cbn [smem existsb] in F.
    repeat (apply orb_true_iff in F; destruct F as [F|F]; [apply String.eqb_eq in F; subst f; reflexivity|]). discriminate F.
  - intros x vs F V. unfold ex_J. rewrite F. apply andb_true_iff in V. destruct V as [V _]. destruct (symbol_inv x V) as [_ [_ [_ [_ [_ [_ [_ [S0 [_ T]]]]]]]]].
    rewrite T. destruct (String.eqb_spec x "set.empty") as [-> |]; [discriminate S0|]. destruct (String.eqb_spec x "set.create") as [-> |]; [discriminate S0|]. reflexivity.
  - reflexivity.
  - reflexivity.
  - reflexivity.
  - intros vs. unfold ex_J, tuple_name. rewrite digits_not_fn. unfold pre. rewrite (prefix_refl_app "tuple" _). cbn [skip String.append].
    pose proof (at_underscore_none (Nat.to_uint (List.length vs))) as U. unfold string_of_nat.
    destruct (at_underscore (NilEmpty.string_of_uint (Nat.to_uint (List.length vs)))) as [a b]. cbn in U. subst b. reflexivity.
  - intros n i v. unfold ex_J. rewrite get_not_fn. unfold get_name, pre. rewrite (prefix_refl_app "tuple" _). cbn [skip String.append].
    unfold string_of_nat. change ("_get" ++ string_of_Z i)%string with (String "_" ("get" ++ string_of_Z i)).
    rewrite at_underscore_digits. cbn [skip String.append]. unfold string_of_Z. rewrite NilEmpty.isi, DecimalZ.of_to. reflexivity.
Qed.
Definition ex_env : env := upd (upd (upd (fun _ => None) "x" (VInt 2)) "h" (VFn "f")) "p" (VTuple [VInt 7; VInt 8]).
Example C50_example : plain ex_fn (ex_tree 3) = true /\ smt_ok (ex_tree 3) = true /\ vars_only ex_fn (upd ex_env "g" (VList [])) /\
  eval ex_I (upd ex_env "g" (VList [])) (ex_tree 3) = Some (VTuple [VInt 1; VInt 8]).
Proof.
  split; [reflexivity|]. split; [reflexivity|]. split; [|reflexivity].
  assert (B : vars_only ex_fn (fun _ => None)) by (intros x H; congruence).
  unfold ex_env. repeat apply vars_upd; auto.
Qed.

(** Without [smt_ok]: a negative number prints as a word that is not a numeral, so for
    SMT-LIB an undeclared constant; an operator with a single operand prints as a
    term SMT-LIB does not have. *)
Theorem C50_refuted :
  (exists s, to_smt (IntLit (-5)) = Ok s /\ s = "-5" /\ eval ex_I (fun _ => None) (IntLit (-5)) = Some (VInt (-5)) /\
             forall t, read_smt s = Some [t] -> sval ex_I ex_J (fun _ => None) t = None) /\
  (exists s e, mkBoolN KAnd [BoolLit true] = Ok e /\ to_smt e = Ok s /\ eval ex_I (fun _ => None) e = Some (VBool true) /\
             forall t, read_smt s = Some [t] -> sval ex_I ex_J (fun _ => None) t = None).
Proof.
  split.
  - eexists. split; [reflexivity|]. split; [reflexivity|]. split; [reflexivity|]. intros t E. vm_compute in E. injection E as <-. reflexivity.
  - do 2 eexists. split; [reflexivity|]. split; [reflexivity|]. split; [reflexivity|]. intros t E. vm_compute in E. injection E as <-. reflexivity.
Qed.
Print Assumptions C50_refuted.
