(** C47: the older generator of verification conditions, metalift/vc.py. *)

From Coq Require Import String List ZArith Bool Lia.
From Verif Require Import Ast Semantics Dict IrProofs UtilProofs PySem PyProofs2 PyProofs3 LlModel VcModel VcSem VcProofs1 VcProofs2 VcProofs3 VcProofs4 VcProofs5 VcProofs6.
Import ListNotations.
Local Open Scope Z_scope.
Local Open Scope string_scope.
Local Open Scope list_scope.

(** ** The code as it is never makes a condition *)

Definition nf {A} (r : res A) : Prop := r <> Err ExFuel.
Lemma nf_bind A B (m : res A) (k : A -> res B) : nf m -> (forall a, nf (k a)) -> nf (x <- m ;; k x).
Proof. unfold nf. intros M H. destruct m; cbn; auto. intros [= ->]. now apply M. Qed.
Lemma nf_mapR A B (f : A -> res B) l : (forall a, nf (f a)) -> nf (mapR f l).
Proof. intros H. induction l as [|a l IH]; cbn; [discriminate|]. apply nf_bind; auto. intros b. apply nf_bind; auto. discriminate. Qed.
Create HintDb nf.
Ltac nf := repeat first [ discriminate | solve [auto with nf] | apply nf_bind; [|intros] | apply nf_mapR; intros
  | match goal with |- nf (match ?x with _ => _ end) => destruct x | |- nf (if ?x then _ else _) => destruct x end ].
Lemma nf_type_of e : nf (type_of e).
Proof. unfold type_of. nf. Qed.
#[local] Hint Resolve nf_type_of : nf.
Lemma nf_check t l : nf (check_types t l).
Proof. induction l as [|a l IH]; cbn [check_types]; nf. Qed.
#[local] Hint Resolve nf_check : nf.
Lemma nf_boolN k l : nf (mkBoolN k l).
Proof. unfold mkBoolN. nf. Qed.
Lemma nf_not l : nf (mkNot l).
Proof. unfold mkNot. nf. Qed.
Lemma nf_implies l : nf (mkImplies l).
Proof. unfold mkImplies. nf. Qed.
Lemma nf_eq l : nf (mkEq l).
Proof. unfold mkEq. nf. Qed.
Lemma nf_cmp k l : nf (mkCmp k l).
Proof. unfold mkCmp. nf. Qed.
Lemma nf_arithN k l : nf (mkArithN k l).
Proof. unfold mkArithN. nf. Qed.
Lemma nf_arith2 k l : nf (mkArith2 k l).
Proof. unfold mkArith2. nf. Qed.
Lemma nf_ite l : nf (mkIte l).
Proof. unfold mkIte. nf. Qed.
Lemma nf_call f t l : nf (mkCall f t l).
Proof. unfold mkCall. nf. Qed.
#[local] Hint Resolve nf_boolN nf_not nf_implies nf_eq nf_cmp nf_arithN nf_arith2 nf_ite nf_call : nf.
Lemma nf_nary k l : nf (nary k l).
Proof. unfold nary. nf. Qed.
#[local] Hint Resolve nf_nary : nf.
Lemma nf_chain l : forall e, nf (ite_chain e l).
Proof. induction l as [|[x y] l IH]; intros e; cbn [ite_chain]; nf. Qed.
#[local] Hint Resolve nf_chain : nf.
Lemma nf_merge_value vs : nf (merge_value vs).
Proof. unfold merge_value, value_path. nf. Qed.
#[local] Hint Resolve nf_merge_value : nf.
Lemma nf_merge l : nf (merge_vstates l).
Proof. unfold merge_vstates, merge_container. nf. Qed.
Lemma nf_operand o d : nf (parse_operand o d).
Proof. unfold parse_operand. nf. Qed.
#[local] Hint Resolve nf_merge nf_operand : nf.
Lemma nf_minst regs mem m : nf (eval_minst regs mem m).
Proof.
  induction m as [x| |b|p|m IH|m IH|f u l IH|] using minst_ind'; cbn [eval_minst]; try solve [nf].
  apply nf_bind; [|intros; apply nf_call]. induction IH as [|a l A _ IHl]; cbn [mapR]; nf.
Qed.
Lemma nf_icmp c a b : nf (icmp_value c a b).
Proof. unfold icmp_value. nf. Qed.
Lemma nf_alloca t : nf (alloca_value t).
Proof. unfold alloca_value. nf. Qed.
#[local] Hint Resolve nf_minst nf_icmp nf_alloca : nf.
Lemma nf_make_var fn io g n a : nf (make_var fn io g n a).
Proof. unfold make_var. nf. Qed.
#[local] Hint Resolve nf_make_var : nf.
Lemma nf_make_vars fn io l : forall g, nf (make_vars fn io g l).
Proof. induction l as [|[n a] l IH]; intros g; cbn [make_vars]; nf. Qed.
Lemma nf_havoc fn io ps : forall g s, nf (havoc_all fn io ps g s).
Proof. induction ps as [|p ps IH]; intros g s; cbn [havoc_all]; nf. Qed.
#[local] Hint Resolve nf_make_vars nf_havoc : nf.
Lemma nf_vsteps fn io is : forall z, nf (vsteps fn io is z).
Proof. induction is as [|i is IH]; intros z; cbn [vsteps]; nf. unfold vstep. nf. Qed.
#[local] Hint Resolve nf_vsteps : nf.
Lemma nf_eqs fn io l regs : forall g, nf (assign_eqs fn io g regs l).
Proof. induction l as [|[x t] l IH]; intros g; cbn [assign_eqs]; nf. Qed.
Lemma nf_conj l : nf (conj l).
Proof. unfold conj. nf. Qed.
Lemma nf_both a b : nf (both a b).
Proof. unfold both. nf. Qed.
#[local] Hint Resolve nf_eqs nf_conj nf_both : nf.
Lemma nf_compute fn io b gd : nf (compute fn io b gd).
Proof. unfold compute, form_vc. nf. Qed.
#[local] Hint Resolve nf_compute : nf.

Definition fails {A} (r : res A) : Prop := exists e, r = Err e.
Lemma fails_bind A B (m : res A) (k : A -> res B) : (forall a, fails (k a)) -> fails (x <- m ;; k x).
Proof. intros H. destruct m as [a|e]; cbn; [apply H | now exists e]. Qed.
Lemma compute_fails fn b gd : fails (compute fn class_is_object b gd).
Proof.
  unfold compute. apply fails_bind. intros s. apply fails_bind. intros z. unfold form_vc.
  match goal with |- fails (bindR ?m _) => assert (M : fails m) end.
  { do 8 (apply fails_bind; intros). now exists ExNYI. }
  destruct M as (e & ->). cbn. now exists e.
Qed.
Lemma vpass_first fn bs gd : nf (vpass fn class_is_object bs gd) /\ (forall q, vpass fn class_is_object bs gd = Ok q -> fst q = true).
Proof.
  induction bs as [|b bs [IH1 IH2]]; cbn [vpass]; [split; [discriminate | intros q [= <-]; reflexivity]|].
  destruct (vready (snd gd) b); [|split; auto]. pose proof (nf_compute fn class_is_object b gd) as N. destruct (compute_fails fn b gd) as (e & E). rewrite E in *. cbn.
  split; [intros [= X]; apply N; now rewrite X | discriminate].
Qed.

(** Whatever the function, computeVC raises an exception: [makeVar] is called with
    classes for the variables of blocks, and tests whether they are instances of
    [Object]. *)
Theorem C47_refuted fn bs first args uninterp : exists e, compute_vc fn class_is_object bs first args uninterp = Err e /\ e <> ExFuel.
Proof.
  unfold compute_vc. destruct (negb _); [now exists ExKey|].
  pose proof (nf_make_vars fn class_is_object (map (fun p => (fst p, TypeRef (snd p))) args) {| q_vars := []; q_num := 0 |}) as N1.
  destruct (make_vars _ _ _ _) as [vs|e]; cbn [bindR]; [|exists e; split; auto; congruence].
  cbn [vpasses]. match goal with |- context [vpass fn class_is_object bs ?gd] => destruct (vpass_first fn bs gd) as [N2 T2]; destruct (vpass fn class_is_object bs gd) as [q|e] end; cbn [bindR];
    [|exists e; split; auto; congruence].
  rewrite (T2 q eq_refl). cbn [bindR].
  match goal with |- context [mkBoolN KAnd ?l] => pose proof (nf_boolN KAnd l) as N3; destruct (mkBoolN KAnd l) as [c|e] end; cbn [bindR]; [|exists e; split; auto; congruence].
  now exists ExNYI.
Qed.
Print Assumptions C47_refuted.

(** ** With the test repaired *)

(** Full statement (false, see below): for every acyclic graph, without [wf_graph].
    Missing: graphs in which an [assume] follows an [assert] in a block, in which
    registers or cells are used before they have a value, with [ult], with names that
    clash, and with the library functions of models.py.  [compute_vc] only has a result
    for graphs without cycles. *)
Theorem C47_partial I G fn K bs first args uninterp vars body :
  respects I G -> wf_graph G K bs first args ->
  compute_vc fn (fun _ => true) bs first args uninterp = Ok (vars, body) ->
  (valid_vc I vars body <-> ~ violation I (g_cells G) bs first args).
Proof. apply compute_vc_correct. Qed.
Print Assumptions C47_partial.

(** *** Cases *)

(** the hypotheses about a graph, checked block by block *)
Ltac blocks1 := repeat match goal with
  | H : In _ _ |- _ => progress cbn in H
  | H : _ \/ _ |- _ => destruct H
  | H : False |- _ => destruct H
  | H : (_, _) = (_, _) |- _ => injection H as <- <-
  end; subst.
Ltac blocks := blocks1; blocks1.

(** the absolute value of an argument, stored in memory on both branches *)
Definition abs_graph : list vblock :=
  [ {| k_name := "entry"; k_instrs := [JAlloca "p" TInt; JStore (VName "x") "p"; JCmp "slt" "c" TBool (VName "x") (VNum 0); JSkip];
       k_preds := []; k_succs := ["neg"; "pos"] |};
    {| k_name := "neg"; k_instrs := [JAssume (MVal "c"); JBin KSub "n" (VNum 0) (VName "x"); JStore (VName "n") "p"; JSkip];
       k_preds := ["entry"]; k_succs := ["join"] |};
    {| k_name := "pos"; k_instrs := [JAssume (MNot (MVal "c")); JSkip]; k_preds := ["entry"]; k_succs := ["join"] |};
    {| k_name := "join"; k_instrs := [JLoad "v" TInt "p"; JCmp "sle" "d" TBool (VNum 0) (VName "v"); JAssert (MVal "d"); JSkip];
       k_preds := ["neg"; "pos"]; k_succs := [] |} ].
Definition abs_sigs : sigs :=
  {| g_regs := [("x", TInt); ("c", TBool); ("n", TInt); ("v", TInt); ("d", TBool)]; g_cells := [("p", TInt)]; g_fns := [] |}.
Definition abs_known (b : string) : known :=
  if b =? "entry" then (["x"], []) else (["x"; "c"], ["p"]).

Lemma abs_respects I : respects I abs_sigs.
Proof. intros f ts t vs D. discriminate. Qed.
Lemma abs_wf : wf_graph abs_sigs abs_known abs_graph "entry" [("x", TInt)].
Proof.
  constructor.
  - cbn. repeat (constructor; [cbn; intuition discriminate|]). constructor.
  - intros x p n _ []. 
  - intros x t IN. blocks. reflexivity.
  - intros x t [D|D]; cbn in D; repeat match type of D with (if ?b then _ else _) = _ => destruct b end; congruence || (injection D as <-; reflexivity).
  - eexists. split; [now left | auto].
  - intros b B N. blocks; cbn in *; congruence.
  - intros b c B C. blocks; cbn; split; intros H; blocks; try discriminate; auto.
  - intros b x B [X|X]; blocks; cbn; auto.
  - intros b c c' B C C' S1 S2 N. blocks; cbn in *; try discriminate; try congruence; (split; [reflexivity|]); (split; [reflexivity|]);
      first [eexists _, _, _; left; split; reflexivity | eexists _, _, _; right; split; reflexivity].
  - reflexivity.
  - intros b B. blocks; (split; [reflexivity|]); eexists; (split; [reflexivity|]); intros c C; blocks; cbn; split; intros x X; cbn in *; intuition.
Qed.
(** the value of a formula, node by node *)
Section Ev.
Variables (I : interp) (r : env).
Lemma ev_all t es bs : mapO (eval I r) es = Some (map VBool bs) -> es <> [] -> eval I r (Node KAnd t es) = Some (VBool (forallb (fun b => b) bs)).
Proof. intros H N. cbn. rewrite H. unfold op_val. rewrite as_bools. destruct bs; [destruct es as [|e es]; [congruence|]; cbn in H; destruct (eval I r e), (mapO (eval I r) es); discriminate | reflexivity]. Qed.
Lemma ev_any t es bs : mapO (eval I r) es = Some (map VBool bs) -> es <> [] -> eval I r (Node KOr t es) = Some (VBool (existsb (fun b => b) bs)).
Proof. intros H N. cbn. rewrite H. unfold op_val. rewrite as_bools. destruct bs; [destruct es as [|e es]; [congruence|]; cbn in H; destruct (eval I r e), (mapO (eval I r) es); discriminate | reflexivity]. Qed.
Lemma ev_nil : mapO (eval I r) [] = Some (map VBool []).
Proof. reflexivity. Qed.
Lemma ev_cons e es b bs : eval I r e = Some (VBool b) -> mapO (eval I r) es = Some (map VBool bs) -> mapO (eval I r) (e :: es) = Some (map VBool (b :: bs)).
Proof. intros A B. cbn. now rewrite A, B. Qed.
Lemma ev_not t e b : eval I r e = Some (VBool b) -> eval I r (Node KNot t [e]) = Some (VBool (negb b)).
Proof. intros A. cbn. now rewrite A. Qed.
Lemma ev_implies t a b x y : eval I r a = Some (VBool x) -> eval I r b = Some (VBool y) -> eval I r (Node KImplies t [a; b]) = Some (VBool (implb x y)).
Proof. intros A B. cbn. now rewrite A, B. Qed.
Lemma ev_eq t a b x y : eval I r a = Some x -> eval I r b = Some y -> eval I r (Node KEq t [a; b]) = Some (VBool (val_eqb x y)).
Proof. intros A B. cbn. now rewrite A, B. Qed.
Lemma ev_lt t a b x y : eval I r a = Some (VInt x) -> eval I r b = Some (VInt y) -> eval I r (Node KLt t [a; b]) = Some (VBool (x <? y)%Z).
Proof. intros A B. cbn. now rewrite A, B. Qed.
Lemma ev_le t a b x y : eval I r a = Some (VInt x) -> eval I r b = Some (VInt y) -> eval I r (Node KLe t [a; b]) = Some (VBool (x <=? y)%Z).
Proof. intros A B. cbn. now rewrite A, B. Qed.
Lemma ev_sub t a b x y : eval I r a = Some (VInt x) -> eval I r b = Some (VInt y) -> eval I r (Node KSub t [a; b]) = Some (VInt (x - y)).
Proof. intros A B. cbn. now rewrite A, B. Qed.
Lemma ev_add t a b x y : eval I r a = Some (VInt x) -> eval I r b = Some (VInt y) -> eval I r (Node KAdd t [a; b]) = Some (VInt (x + y)).
Proof. intros A B. cbn. rewrite A, B. cbn. now rewrite Z.add_0_r || reflexivity. Qed.
Lemma ev_ite t c a b x y z : eval I r c = Some (VBool x) -> eval I r a = Some (VInt y) -> eval I r b = Some (VInt z) -> eval I r (Node KIte t [c; a; b]) = Some (VInt (if x then y else z)).
Proof. intros C A B. cbn. rewrite C, A, B. now destruct x. Qed.
Lemma ev_call1 t f a x v : eval I r a = Some x -> i_call I f [x] = Some v -> eval I r (Node KCall t [Atom (PStr f); a]) = Some v.
Proof. intros A B. cbn. now rewrite A. Qed.
Lemma ev_call2 t f a b x y v : eval I r a = Some x -> eval I r b = Some y -> i_call I f [x; y] = Some v -> eval I r (Node KCall t [Atom (PStr f); a; b]) = Some v.
Proof. intros A B C. cbn. now rewrite A, B. Qed.
End Ev.
Ltac ev := lazymatch goal with
  | |- mapO _ [] = _ => exact (ev_nil _ _)
  | |- mapO _ (_ :: _) = _ => eapply ev_cons; [ev | ev]
  | |- eval _ _ (Node ?k _ _) = _ =>
      lazymatch k with
      | KAnd => eapply ev_all; [ev | discriminate]
      | KOr => eapply ev_any; [ev | discriminate]
      | KNot => eapply ev_not; ev
      | KImplies => eapply ev_implies; [ev | ev]
      | KEq => eapply ev_eq; [ev | ev]
      | KLt => eapply ev_lt; [ev | ev]
      | KLe => eapply ev_le; [ev | ev]
      | KSub => eapply ev_sub; [ev | ev]
      | KAdd => eapply ev_add; [ev | ev]
      | KIte => eapply ev_ite; [ev | ev | ev]
      | KVar => eassumption
      | KLit => reflexivity
      | KCall => first [eapply ev_call1; [ev | reflexivity] | eapply ev_call2; [ev | ev | reflexivity]]
      end
  end.
(** the values of the declared variables *)
Ltac get_int F x v E := destruct (F x TInt) as ([v| | | |] & E & O); [solve [cbn [In]; repeat first [left; reflexivity | right]]|..]; try discriminate O; clear O.
Ltac get_bool F x v E := destruct (F x TBool) as ([|v| | |] & E & O); [solve [cbn [In]; repeat first [left; reflexivity | right]]|..]; try discriminate O; clear O.

Example abs_safe I : exists vars body,
  compute_vc "f" (fun _ => true) abs_graph "entry" [("x", TInt)] [] = Ok (vars, body) /\
  length vars = 8%nat /\ valid_vc I vars body /\ ~ violation I (g_cells abs_sigs) abs_graph "entry" [("x", TInt)].
Proof.
  destruct (compute_vc "f" (fun _ => true) abs_graph "entry" [("x", TInt)] []) as [[vars body]|e] eqn:C; [|vm_compute in C; discriminate].
  exists vars, body. split; auto. pose proof C as C'. vm_compute in C'.
  assert (V : length vars = 8%nat /\ valid_vc I vars body).
  { injection C' as <- <-. clear C. split; [reflexivity|]. intros r F. get_int F "f_x" x Ex. get_int F "f_v" v Ev.
    get_bool F "f_c" c Ec. get_bool F "f_neg" n En. get_bool F "f_pos" p Ep. get_bool F "f_entry" e Ee. get_bool F "f_join" j Ej. get_bool F "f_d" d Ed.
    assert (X : forall o b, o = Some (VBool b) -> b = true -> o = Some (VBool true)) by congruence.
    eapply X; [ev|]. cbn -[Z.ltb Z.leb Z.eqb Z.sub].
    destruct (Z.ltb_spec x 0) as [L|L]; cbn -[Z.ltb Z.leb Z.eqb Z.sub].
    - replace (0 <=? 0 - x)%Z with true by (symmetry; apply Z.leb_le; lia). destruct (v =? 0 - x)%Z, e, j, n, p, c, d; reflexivity.
    - replace (0 <=? x)%Z with true by (symmetry; apply Z.leb_le; lia). destruct (v =? x)%Z, e, j, n, p, c, d; reflexivity. }
  destruct V as [L V]. split; auto. split; auto. exact (proj1 (C47_partial _ _ _ _ _ _ _ _ _ _ (abs_respects I) abs_wf C) V).
Qed.

(** a loop as analysis.py:192-252 cuts it: the invariant is asserted before the loop
    and at its end, and assumed for any contents of memory at its start *)
Definition loop_graph : list vblock :=
  [ {| k_name := "entry"; k_instrs := [JAlloca "p" TInt; JStore (VNum 0) "p"; JAssert (MCall "inv" TBool [MLoad "p"])];
       k_preds := []; k_succs := ["head"] |};
    {| k_name := "head"; k_instrs := [JHavoc ["p"]; JAssume (MCall "inv" TBool [MLoad "p"]); JLoad "v" TInt "p"; JCmp "slt" "c" TBool (VName "v") (VName "x"); JSkip];
       k_preds := ["entry"]; k_succs := ["body"; "exit"] |};
    {| k_name := "body"; k_instrs := [JAssume (MVal "c"); JBin KAdd "n" (VName "v") (VNum 1); JStore (VName "n") "p"; JAssert (MCall "inv" TBool [MLoad "p"])];
       k_preds := ["head"]; k_succs := [] |};
    {| k_name := "exit"; k_instrs := [JAssume (MNot (MVal "c")); JAssert (MCall "ps" TBool [MVal "x"; MVal "v"]); JSkip]; k_preds := ["head"]; k_succs := [] |} ].
Definition loop_sigs : sigs :=
  {| g_regs := [("x", TInt); ("v", TInt); ("c", TBool); ("n", TInt)]; g_cells := [("p", TInt)];
     g_fns := [("inv", ([TInt], TBool)); ("ps", ([TInt; TInt], TBool))] |}.
Definition loop_known (b : string) : known :=
  if b =? "entry" then (["x"], []) else if b =? "head" then (["x"], ["p"]) else (["x"; "v"; "c"], ["p"]).
(** the invariant is [0 <= i]; the summary is [x <= i], or else [i = x] *)
Definition loop_interp (I : interp) (exact : bool) : interp :=
  {| i_div := i_div I; i_mod := i_mod I;
     i_call := fun f vs =>
       if f =? "inv" then match vs with [VInt i] => Some (VBool (0 <=? i)%Z) | _ => None end
       else if f =? "ps" then match vs with [VInt x; VInt v] => Some (VBool (if exact then (v =? x)%Z else (x <=? v)%Z)) | _ => None end
       else None |}.
Lemma loop_respects I exact : respects (loop_interp I exact) loop_sigs.
Proof.
  intros f ts t vs D F. unfold loop_sigs in D. cbn [g_fns dget] in D. cbn [i_call loop_interp].
  destruct (String.eqb_spec f "inv") as [->|_]; [|destruct (String.eqb_spec f "ps") as [->|_]; [|discriminate D]]; injection D as <- <-.
  - inversion F as [|? v ? vs' O F']; subst. inversion F'; subst. destruct v; try discriminate O. cbn. eauto.
  - inversion F as [|? v ? vs' O F']; subst. inversion F' as [|? v2 ? vs2 O2 F2]; subst. inversion F2; subst. destruct v, v2; try discriminate O; try discriminate O2. cbn. eauto.
Qed.
Lemma loop_wf : wf_graph loop_sigs loop_known loop_graph "entry" [("x", TInt)].
Proof.
  constructor.
  - cbn. repeat (constructor; [cbn; intuition discriminate|]). constructor.
  - intros x p n X P. cbn in P. destruct P as [<-|[]]. cbn in X. intuition (subst; discriminate).
  - intros x t IN. blocks. reflexivity.
  - intros x t [D|D]; cbn in D; repeat match type of D with (if ?b then _ else _) = _ => destruct b end; congruence || (injection D as <-; reflexivity).
  - eexists. split; [now left | auto].
  - intros b B N. blocks; cbn in *; congruence.
  - intros b c B C. blocks; cbn; split; intros H; blocks; try discriminate; auto.
  - intros b x B [X|X]; blocks; cbn; auto.
  - intros b c c' B C C' S1 S2 N. blocks; cbn in *; try discriminate; try congruence; (split; [reflexivity|]); (split; [reflexivity|]);
      first [eexists _, _, _; left; split; reflexivity | eexists _, _, _; right; split; reflexivity].
  - reflexivity.
  - intros b B. blocks; (split; [reflexivity|]); eexists; (split; [reflexivity|]); intros c C; blocks; cbn; split; intros x X; cbn in *; intuition.
Qed.

Example loop_safe I : exists vars body,
  compute_vc "f" (fun _ => true) loop_graph "entry" [("x", TInt)] [] = Ok (vars, body) /\
  In (mkVar "f_p_0" TInt) vars /\ valid_vc (loop_interp I false) vars body /\ ~ violation (loop_interp I false) (g_cells loop_sigs) loop_graph "entry" [("x", TInt)].
Proof.
  destruct (compute_vc "f" (fun _ => true) loop_graph "entry" [("x", TInt)] []) as [[vars body]|e] eqn:C; [|vm_compute in C; discriminate C].
  exists vars, body. split; auto. pose proof C as C'. vm_compute in C'.
  assert (V : In (mkVar "f_p_0" TInt) vars /\ valid_vc (loop_interp I false) vars body).
  { injection C' as <- <-. clear C. split; [cbn [In]; repeat first [left; reflexivity | right]|]. intros r F. get_int F "f_x" x Ex. get_int F "f_p_0" p0 Ep0. get_int F "f_v" v Ev.
    get_bool F "f_c" c Ec. get_bool F "f_head" h Eh. get_bool F "f_body" b Eb. get_bool F "f_entry" e Ee. get_bool F "f_exit" x1 Ex1.
    assert (X : forall o b, o = Some (VBool b) -> b = true -> o = Some (VBool true)) by congruence.
    eapply X; [ev|]. cbn -[Z.ltb Z.leb Z.eqb Z.add].
    destruct (Z.ltb_spec p0 x) as [L|L], (Z.leb_spec 0 p0) as [L'|L']; cbn -[Z.ltb Z.leb Z.eqb Z.add].
    - replace (0 <=? p0 + 1)%Z with true by (symmetry; apply Z.leb_le; lia). destruct (v =? p0)%Z, e, h, b, x1, c; reflexivity.
    - destruct (v =? p0)%Z, (0 <=? p0 + 1)%Z, (x <=? p0)%Z, e, h, b, x1, c; reflexivity.
    - replace (x <=? p0)%Z with true by (symmetry; apply Z.leb_le; lia). destruct (v =? p0)%Z, (0 <=? p0 + 1)%Z, e, h, b, x1, c; reflexivity.
    - destruct (v =? p0)%Z, (0 <=? p0 + 1)%Z, (x <=? p0)%Z, e, h, b, x1, c; reflexivity. }
  destruct V as [L V]. split; auto. split; auto. exact (proj1 (C47_partial _ _ _ _ _ _ _ _ _ _ (loop_respects I false) loop_wf C) V).
Qed.

Ltac run := repeat match goal with
  | |- execs _ _ [] _ _ => apply xs_nil
  | |- execs _ _ (_ :: _) _ _ => eapply xs_cons
  | |- exec _ _ (JHavoc _) _ _ => apply x_havoc; eapply (h_cons _ _ _ _ _ _ _ (VInt 0)); [reflexivity | reflexivity | apply h_nil]
  | |- exec _ _ (JStore _ _) _ _ => eapply x_store; reflexivity
  | |- exec _ _ (JLoad _ _ _) _ _ => eapply x_load; reflexivity
  | |- exec _ _ (JAlloca _ _) _ _ => apply x_alloca
  | |- exec _ _ (JCmp _ _ _ _ _) _ _ => eapply x_cmp; reflexivity
  | |- exec _ _ (JBin _ _ _ _) _ _ => eapply x_bin; reflexivity
  | |- exec _ _ (JAssert _) _ _ => eapply x_assert; reflexivity
  | |- exec _ _ (JAssume _) _ _ => eapply x_assume; reflexivity
  | |- exec _ _ JSkip _ _ => apply x_skip
  end.
Definition start_at (l : list (string * val)) : store := {| cr := dget l; cm := fun _ => None |}.
Lemma initial_at args l : map fst args = map fst l -> forallb (fun p => match dget l (fst p) with Some v => of_type (snd p) v | None => false end) args = true ->
  initial args (start_at l).
Proof.
  intros E F. rewrite forallb_forall in F. repeat split; cbn; auto.
  - intros x t IN. specialize (F _ IN). cbn in F.  destruct (dget l x); [eauto | discriminate].
  - intros x N.  destruct (dget l x) as [v|] eqn:D; auto. apply PyProofs3.dget_in in D. exfalso. apply N. rewrite E. now apply (in_map fst) in D.
Qed.

(** with the stronger summary, the condition is not valid *)
Example loop_unsafe I : exists vars body,
  compute_vc "f" (fun _ => true) loop_graph "entry" [("x", TInt)] [] = Ok (vars, body) /\
  violation (loop_interp I true) (g_cells loop_sigs) loop_graph "entry" [("x", TInt)] /\ ~ valid_vc (loop_interp I true) vars body.
Proof.
  destruct (compute_vc "f" (fun _ => true) loop_graph "entry" [("x", TInt)] []) as [[vars body]|e] eqn:C; [|vm_compute in C; discriminate C].
  exists vars, body. split; auto.
  assert (V : violation (loop_interp I true) (g_cells loop_sigs) loop_graph "entry" [("x", TInt)]).
  { set (b0 := nth 0 loop_graph (nth 0 loop_graph {| k_name := ""; k_instrs := []; k_preds := []; k_succs := [] |})).
    set (b1 := nth 1 loop_graph b0). set (b3 := nth 3 loop_graph b0).
    exists b3, [JAssume (MNot (MVal "c"))], (MCall "ps" TBool [MVal "x"; MVal "v"]), [JSkip]. eexists _, _. split; [cbn; auto|]. split; [reflexivity|]. split; [|split].
    - eapply (reach_next _ _ _ _ _ b1 "exit"); [cbn; auto| | |cbn; auto].
      + eapply (reach_next _ _ _ _ _ b0 "head"); [cbn; auto| | |cbn; auto].
        * apply reach_first. apply (initial_at _ [("x", VInt (-1))]); reflexivity.
        * cbn [k_instrs b0 loop_graph nth]. run.
      + cbn [k_instrs b1 loop_graph nth]. run.
    - run.
    - reflexivity. }
  split; auto. intros W. exact (proj1 (C47_partial _ _ _ _ _ _ _ _ _ _ (loop_respects I true) loop_wf C) W V).
Qed.

(** ** What is wrong outside of these graphs *)

(** LLVM's [ult] compares without sign; vc.py:394 treats it like [slt].  As 32-bit
    numbers without sign, -1 is not less than 0. *)
Definition ult_graph : list vblock :=
  [ {| k_name := "entry"; k_instrs := [JCmp "ult" "c" TBool (VNum (-1)) (VNum 0); JAssert (MVal "c")]; k_preds := []; k_succs := [] |} ].
Theorem C47_ult_refuted I : exists vars body,
  compute_vc "f" (fun _ => true) ult_graph "entry" [] [] = Ok (vars, body) /\ valid_vc I vars body /\ violation I [] ult_graph "entry" [].
Proof.
  destruct (compute_vc "f" (fun _ => true) ult_graph "entry" [] []) as [[vars body]|e] eqn:C; [|vm_compute in C; discriminate C].
  exists vars, body. split; auto. vm_compute in C. injection C as <- <-. split.
  - intros r F. get_bool F "f_c" c Ec. get_bool F "f_entry" e Ee.
    assert (X : forall o b, o = Some (VBool b) -> b = true -> o = Some (VBool true)) by congruence.
    eapply X; [ev|]. destruct c, e; reflexivity.
  - exists (nth 0 ult_graph {| k_name := ""; k_instrs := []; k_preds := []; k_succs := [] |}), [JCmp "ult" "c" TBool (VNum (-1)) (VNum 0)], (MVal "c"), [].
    eexists _, _. split; [cbn; auto|]. split; [reflexivity|]. split; [|split].
    + apply reach_first. apply (initial_at [] []); reflexivity.
    + run.
    + reflexivity.
Qed.
Print Assumptions C47_ult_refuted.

(** An [assume] also weakens what was asserted before it in its block. *)
Definition late_graph : list vblock :=
  [ {| k_name := "entry"; k_instrs := [JAssert (MLit false); JAssume (MLit false)]; k_preds := []; k_succs := [] |} ].
Theorem C47_assume_refuted I : exists vars body,
  compute_vc "f" (fun _ => true) late_graph "entry" [] [] = Ok (vars, body) /\ valid_vc I vars body /\ violation I [] late_graph "entry" [].
Proof.
  destruct (compute_vc "f" (fun _ => true) late_graph "entry" [] []) as [[vars body]|e] eqn:C; [|vm_compute in C; discriminate C].
  exists vars, body. split; auto. vm_compute in C. injection C as <- <-. split.
  - intros r F. get_bool F "f_entry" e Ee.
    assert (X : forall o b, o = Some (VBool b) -> b = true -> o = Some (VBool true)) by congruence.
    eapply X; [ev|]. destruct e; reflexivity.
  - exists (nth 0 late_graph {| k_name := ""; k_instrs := []; k_preds := []; k_succs := [] |}), [], (MLit false), [JAssume (MLit false)].
    eexists _, _. split; [cbn; auto|]. split; [reflexivity|]. split; [|split].
    + apply reach_first. apply (initial_at [] []); reflexivity.
    + run.
    + reflexivity.
Qed.
Print Assumptions C47_assume_refuted.

(** The variable for the havocked cell [p] is named like an argument [p_0]. *)
Definition clash_graph : list vblock :=
  [ {| k_name := "entry";
       k_instrs := [JAlloca "p" TInt; JStore (VNum 0) "p"; JHavoc ["p"]; JLoad "v" TInt "p"; JCmp "eq" "c" TBool (VName "v") (VName "p_0"); JAssert (MVal "c")];
       k_preds := []; k_succs := [] |} ].
Theorem C47_names_refuted I : exists vars body,
  compute_vc "f" (fun _ => true) clash_graph "entry" [("p_0", TInt)] [] = Ok (vars, body) /\ valid_vc I vars body /\
  violation I [("p", TInt)] clash_graph "entry" [("p_0", TInt)].
Proof.
  destruct (compute_vc "f" (fun _ => true) clash_graph "entry" [("p_0", TInt)] []) as [[vars body]|e] eqn:C; [|vm_compute in C; discriminate C].
  exists vars, body. split; auto. vm_compute in C. injection C as <- <-. split.
  - intros r F. get_int F "f_p_0" p Ep. get_int F "f_v" v Ev. get_bool F "f_c" c Ec. get_bool F "f_entry" e Ee.
    assert (X : forall o b, o = Some (VBool b) -> b = true -> o = Some (VBool true)) by congruence.
    eapply X; [ev|]. cbn -[Z.eqb]. rewrite Z.eqb_refl. destruct (v =? p)%Z, c, e; reflexivity.
  - exists (nth 0 clash_graph {| k_name := ""; k_instrs := []; k_preds := []; k_succs := [] |}),
      [JAlloca "p" TInt; JStore (VNum 0) "p"; JHavoc ["p"]; JLoad "v" TInt "p"; JCmp "eq" "c" TBool (VName "v") (VName "p_0")], (MVal "c"), [].
    eexists _, _. split; [cbn; auto|]. split; [reflexivity|]. split; [|split].
    + apply reach_first. apply (initial_at _ [("p_0", VInt 1)]); reflexivity.
    + run.
    + reflexivity.
Qed.
Print Assumptions C47_names_refuted.
