(** C31-C34: the LLVM frontend. *)

From Coq Require Import String List ZArith Bool Lia.
From Verif Require Import Ast Semantics Dict UtilModel ObjModel PyModel PySem PyProofs PyProofs2 PyProofs3 PyProofs4 Properties_Py.
From Verif Require Import LlModel LlSem LlProofs LlProofs2 LlProofs5 LlProofs6 LlProofs7.
Import ListNotations.
Local Open Scope Z_scope.
Local Open Scope string_scope.
Local Open Scope list_scope.

(** An interpretation of the library functions; [U] is what the external functions
    compute. *)
Definition mathU : string -> list val -> option val := fun g vs =>
  if smem g maths then Some (VInt (match vs with [VInt z] => if g =? "integer_sqrt" then Z.sqrt z else 2 ^ z | _ => 0 end)) else None.
Definition ll_interp (P : string -> list val -> bool) : interp := {|
  i_div := fun x y => Some (x / y);
  i_mod := fun x y => Some (x mod y);
  i_call := fun f vs =>
    if smem f maths then mathU f vs
    else if f =? "matrix_append" then match vs with [VList l; v] => Some (VList (l ++ [v])) | _ => None end
    else i_call (lib_interp P) f vs |}.
Lemma ll_interp_ok P : llibrary (ll_interp P).
Proof.
  pose proof (lib_interp_ok P) as [A B C D E F H].
  constructor; [constructor; assumption | reflexivity.. | intros; eexists; reflexivity].
Qed.
Lemma mathU_ok P g vs : smem g ([] ++ maths) = true -> i_call (ll_interp P) g vs = mathU g vs /\ exists z, mathU g vs = Some (VInt z).
Proof.
  intros M. change (smem g maths = true) in M. unfold ll_interp. cbn [i_call]. rewrite M. unfold mathU. rewrite M. eauto.
Qed.

(** ** C31 and C32: verified lifting of LLVM functions is sound

    The full property: if the verification condition of a function is true for all
    values of its variables, for some meaning of the invariants and of the summary,
    then the summary holds of every value the function returns.  It is false (the
    [_refuted] theorems below).  It is proved for the functions of
    [LlSem.lsupported]:
    - well-typed code over 32-bit integers, Booleans and lists of integers (C++
      vectors among them, which the frontend takes for lists of lists), in which
      registers are defined before they are used; pointers that are written and never
      read may be anything, the others are cells of their own or lists;
    - conditional branches go to blocks that have no other predecessor (which the
      AddEmptyBlocks pass is there for), or one target does nothing and goes on to the
      other one;
    - natural loops with disjoint sets of blocks and disjoint sets of written
      variables, or one inside the other; then nothing that is known at the head of the
      inner loop depends on a variable it writes, in particular the outer invariant
      does not speak about it ([LlSem.ok_nesting], [C32_refuted_nested]);
    - the result is returned, or it is written through the [sret] argument in a loop
      and not after it;
    - where paths meet, all of them have a path condition.
    [Properties_Ll2] applies it to a benchmark of /repo as clang compiled it.
    Executions in which an addition overflows, [sdiv] or [srem] is applied to negative
    numbers or an unsigned comparison to negative numbers are left out ([lreturns]
    says nothing about them). *)
Theorem C32_partial : forall I U an uninterp grammars pre f bs los a w vc,
  llibrary I ->
  (forall g vs, smem g (uninterp ++ maths) = true -> i_call I g vs = U g vs /\ exists z, U g vs = Some (VInt z)) ->
  (* invariants are predicates *)
  (forall n vs, exists b, i_call I (inv_name (lf_name f) n) vs = Some (VBool b)) ->
  (* the preconditions speak about the arguments, and hold *)
  Forall (fun e => (pl true e = true /\ incl (fv e) (arg_names f true ++ arg_names f false)) /\
                   forall r, fits (a_prim an ++ a_ptr an) r -> exists b, eval I r e = Some (VBool b)) pre ->
  Forall (fun e => eval I a e = Some (VBool true)) pre ->
  graph_of f = Ok (bs, los) ->
  lsupported an uninterp grammars f bs los (nonempty pre) = true ->
  lfunc_vc uninterp grammars pre f = Ok vc ->
  holds I (a_prim an ++ a_ptr an) vc ->
  (forall o x, In o (lf_args f) -> var_name o = Ok x -> exists v, a x = Some v /\ of_type (o_ty o) v = true) ->
  lreturns U f a w ->
  (* the summary is true of the arguments, in order of their names, and the result *)
  exists args vs, sort_objs (lf_args f) = Ok args /\
    mapO (fun o => match var_name o with Ok x => a x | Err _ => None end) args = Some vs /\
    i_call I (lf_name f ++ "_ps") (vs ++ [w]) = Some (VBool true).
Proof.
  intros I U an uninterp grammars pre f bs los a w vc LIB UNI INVT PRE PRET GO SUP VC HO ARGS RET.
  assert (P : Forall (okcond I an (argn f)) pre).
  { eapply Forall_impl; [|exact PRE]. intros e [A B]. constructor; auto. }
  exact (lfunc_sound I U an uninterp grammars pre f bs los a w vc LIB UNI INVT P PRET GO SUP VC HO ARGS RET).
Qed.
Print Assumptions C32_partial.

(** the same for functions without loops *)
Theorem C31_partial : forall I U an uninterp pre f bs a w vc,
  lf_loops f = [] ->
  llibrary I ->
  (forall g vs, smem g (uninterp ++ maths) = true -> i_call I g vs = U g vs /\ exists z, U g vs = Some (VInt z)) ->
  (forall n vs, exists b, i_call I (inv_name (lf_name f) n) vs = Some (VBool b)) ->
  Forall (fun e => (pl true e = true /\ incl (fv e) (arg_names f true ++ arg_names f false)) /\
                   forall r, fits (a_prim an ++ a_ptr an) r -> exists b, eval I r e = Some (VBool b)) pre ->
  Forall (fun e => eval I a e = Some (VBool true)) pre ->
  setup_blocks (lf_blocks f) = Ok bs ->
  lsupported an uninterp [] f bs [] (nonempty pre) = true ->
  lfunc_vc uninterp [] pre f = Ok vc ->
  holds I (a_prim an ++ a_ptr an) vc ->
  (forall o x, In o (lf_args f) -> var_name o = Ok x -> exists v, a x = Some v /\ of_type (o_ty o) v = true) ->
  lreturns U f a w ->
  exists args vs, sort_objs (lf_args f) = Ok args /\
    mapO (fun o => match var_name o with Ok x => a x | Err _ => None end) args = Some vs /\
    i_call I (lf_name f ++ "_ps") (vs ++ [w]) = Some (VBool true).
Proof.
  intros I U an uninterp pre f bs a w vc NL LIB UNI INVT PRE PRET SB SUP VC HO ARGS RET.
  eapply C32_partial; eauto. unfold graph_of. rewrite SB, NL. reflexivity.
Qed.
Print Assumptions C31_partial.

(** *** A loop-free function: the larger of two numbers, as compiled with -O0 and
    with the empty blocks *)
Definition biggestf : lfunc := {| lf_name := "big"; lf_args := [var_obj TInt "x"; var_obj TInt "y"]; lf_ret := TInt; lf_sret := None;
  lf_blocks :=
    [("entry", [IAlloca "r" TInt; IStore (OInt 0) (OName "r" true);
                ICmp "sgt" "c" (OName "x" false) (OName "y" false); ICondBr (OName "c" false) "bb" "bb1"]);
     ("if.then", [IStore (OName "x" false) (OName "r" true); IBr "if.end"]);
     ("if.else", [IStore (OName "y" false) (OName "r" true); IBr "if.end"]);
     ("if.end", [ILoad "t" false (OName "r" true); IRet (Some (OName "t" false))]);
     ("bb", [IBr "if.then"]); ("bb1", [IBr "if.else"])];
  lf_loops := [] |}.
Definition biggestan : annot := {|
  a_prim := [("x", TInt); ("y", TInt); ("c", TBool); ("t", TInt); ("big_rv", TInt)]; a_ptr := [("r", TInt)];
  a_avail := let A := [(false, "x"); (false, "y")] in let R := (true, "r") :: A in
             [("entry", A); ("if.then", A); ("if.else", A); ("if.end", R); ("bb", A); ("bb1", A)];
  a_bare := ["entry"]; a_order := ["entry"; "bb"; "bb1"; "if.then"; "if.else"; "if.end"];
  a_loose := []; a_junk := []; a_lits := []; a_result := []; a_clean := [] |}.
Definition biggestP (f : string) (vs : list val) : bool :=
  match vs with [VInt x; VInt y; VInt r] => (r =? Z.max x y)%Z | _ => false end.

Lemma biggestf_vc : exists vc, lfunc_vc [] [] [] biggestf = Ok vc /\
  holds (ll_interp biggestP) (a_prim biggestan ++ a_ptr biggestan) vc.
Proof.
  eexists. split; [vm_compute; reflexivity|]. intros r F. ints F "x"; ints F "y".
  cbn -[Z.max Z.ltb Z.eqb]. rewrite E, E0. cbn -[Z.max Z.ltb Z.eqb].
  destruct (z0 <? z)%Z eqn:C; cbn -[Z.max Z.eqb]; do 2 f_equal; lia.
Qed.
Definition args2 (x y : Z) : env := fun n => if n =? "x" then Some (VInt x) else if n =? "y" then Some (VInt y) else None.

Lemma biggestf_graph : exists bs, setup_blocks (lf_blocks biggestf) = Ok bs /\ lsupported biggestan [] [] biggestf bs [] false = true.
Proof. eexists. split; vm_compute; reflexivity. Qed.
Example C31_example : forall x y w, lreturns mathU biggestf (args2 x y) w -> w = VInt (Z.max x y).
Proof.
  intros x y w R. destruct biggestf_vc as (vc & FV & HO).
  assert (K : exists args vs, sort_objs (lf_args biggestf) = Ok args /\
     mapO (fun o => match var_name o with Ok x0 => args2 x y x0 | Err _ => None end) args = Some vs /\
     i_call (ll_interp biggestP) ("big" ++ "_ps") (vs ++ [w]) = Some (VBool true)).
  { destruct biggestf_graph as (bs & SB & SUP).
    refine (C31_partial (ll_interp biggestP) mathU biggestan [] [] biggestf bs (args2 x y) w vc eq_refl (ll_interp_ok _) _ _ (Forall_nil _) (Forall_nil _) SB SUP FV HO _ R).
    - intros g vs; apply mathU_ok.
    - intros n vs. exists (biggestP (inv_name "big" n) vs). reflexivity.
    - intros o n [<-|[<-|[]]] [= <-]; eexists; split; reflexivity. }
  destruct K as (args & vs & S & M & C). vm_compute in S. injection S as <-. cbn in M. injection M as <-.
  cbn -[Z.max] in C. injection C as C. destruct w; try discriminate C. f_equal. now apply Z.eqb_eq.
Qed.
Example C31_example_runs : lreturns mathU biggestf (args2 3 8) (VInt 8).
Proof. exists 5%nat. reflexivity. Qed.

(** *** A loop: [s = 0; for (i = 0; i < n; i++) s += 2; return s] *)
Definition twicef : lfunc := {| lf_name := "tw"; lf_args := [var_obj TInt "n"]; lf_ret := TInt; lf_sret := None;
  lf_blocks :=
    [("entry", [IAlloca "i" TInt; IAlloca "s" TInt; IStore (OInt 0) (OName "i" true); IStore (OInt 0) (OName "s" true); IBr "for.cond"]);
     ("for.cond", [ILoad "t0" false (OName "i" true); ICmp "slt" "c" (OName "t0" false) (OName "n" false);
                   ICondBr (OName "c" false) "bb" "bb1"]);
     ("for.body", [ILoad "t1" false (OName "s" true); IBin "add" "a" (OName "t1" false) (OInt 2);
                   IStore (OName "a" false) (OName "s" true); IBr "for.inc"]);
     ("for.inc", [ILoad "t3" false (OName "i" true); IBin "add" "inc" (OName "t3" false) (OInt 1);
                  IStore (OName "inc" false) (OName "i" true); IBr "for.cond"]);
     ("for.end", [ILoad "t4" false (OName "s" true); IRet (Some (OName "t4" false))]);
     ("bb", [IBr "for.body"]); ("bb1", [IBr "for.end"])];
  lf_loops := [{| rl_header := "for.cond"; rl_body := ["bb"; "for.body"]; rl_exits := ["for.cond"]; rl_latches := ["for.inc"] |}] |}.
Definition twicean : annot := {|
  a_prim := [("n", TInt); ("t0", TInt); ("t1", TInt); ("t3", TInt); ("t4", TInt); ("c", TBool); ("a", TInt); ("inc", TInt); ("tw_rv", TInt)];
  a_ptr := [("i", TInt); ("s", TInt)];
  a_avail := let X := [(true, "i"); (true, "s"); (false, "n")] in
             [("entry", [(false, "n")]); ("for.cond", X); ("bb", X); ("bb1", X); ("for.body", X); ("for.inc", X); ("for.end", X)];
  a_bare := ["entry"]; a_order := ["entry"; "for.cond"; "bb"; "bb1"; "for.body"; "for.inc"; "for.end"];
  a_loose := []; a_junk := []; a_lits := []; a_result := []; a_clean := [] |}.
(** the loop invariant [s = 2 i /\ 0 <= i <= max n 0], the summary [r = 2 max n 0] *)
Definition twicefP (f : string) (vs : list val) : bool :=
  match vs with
  | [VInt n; VInt r] => (r =? 2 * Z.max n 0)%Z
  | VInt i :: VInt n :: VInt s :: _ => (s =? 2 * i)%Z && (i <=? Z.max n 0)%Z && (0 <=? i)%Z
  | _ => false
  end.
Lemma twicef_vc : exists vc, lfunc_vc [] [] [] twicef = Ok vc /\
  holds (ll_interp twicefP) (a_prim twicean ++ a_ptr twicean) vc.
Proof.
  eexists. split; [vm_compute; reflexivity|]. intros r F. ints F "n"; ints F "i"; ints F "s".
  ints F "tw_rv".
  cbn -[Z.max Z.ltb Z.leb Z.eqb Z.mul Z.add]. rewrite ?E, ?E0, ?E1, ?E2. cbn -[Z.max Z.ltb Z.leb Z.eqb Z.mul Z.add].
  do 2 f_equal.
  destruct (z0 <? z)%Z eqn:C1, (z1 =? 2 * z0)%Z eqn:C2, (z0 <=? Z.max z 0)%Z eqn:C3, (0 <=? z0)%Z eqn:C4; cbn -[Z.max Z.ltb Z.leb Z.eqb Z.mul Z.add]; lia.
Qed.
Definition args1 (n : Z) : env := fun x => if x =? "n" then Some (VInt n) else None.
Lemma twicef_graph : exists bs los, graph_of twicef = Ok (bs, los) /\ lsupported twicean [] [] twicef bs los false = true.
Proof. do 2 eexists. split; vm_compute; reflexivity. Qed.
Example C32_example : forall n w, lreturns mathU twicef (args1 n) w -> w = VInt (2 * Z.max n 0).
Proof.
  intros n w R. destruct twicef_vc as (vc & FV & HO). destruct twicef_graph as (bs & los & GO & SUP).
  assert (K : exists args vs, sort_objs (lf_args twicef) = Ok args /\
     mapO (fun o => match var_name o with Ok x0 => args1 n x0 | Err _ => None end) args = Some vs /\
     i_call (ll_interp twicefP) ("tw" ++ "_ps") (vs ++ [w]) = Some (VBool true)).
  { refine (C32_partial (ll_interp twicefP) mathU twicean [] [] [] twicef bs los (args1 n) w vc (ll_interp_ok _) _ _ (Forall_nil _) (Forall_nil _) GO SUP FV HO _ R).
    - intros g vs; apply mathU_ok.
    - intros k vs. exists (twicefP (inv_name "tw" k) vs). reflexivity.
    - intros o x [<-|[]] [= <-]; eexists; split; reflexivity. }
  destruct K as (args & vs & S & M & C). vm_compute in S. injection S as <-. cbn in M. injection M as <-.
  cbn -[Z.max Z.mul] in C. injection C as C. destruct w; try discriminate C. f_equal. now apply Z.eqb_eq.
Qed.
Example C32_example_runs : lreturns mathU twicef (args1 3) (VInt 6).
Proof. exists 30%nat. reflexivity. Qed.

(** *** What a loop changes

    The class of functions above refers to the havocs of the loops, so on its own
    [C32_partial] would also be true of a frontend that finds too few of them.  They
    are complete: executing an instruction of a loop changes what a pointer [x] points
    to only if [x] is one of the havocs of the loop, or a register that the
    instruction itself sets, or a vector that it constructs, destroys or clears. *)
Definition result_of (i : instr) : option string :=
  match i with
  | IAlloca x _ | ILoad x _ _ | IBin _ x _ _ | ICmp _ x _ _ | IConv _ x _ | ICall x _ _ _ _ => Some x
  | _ => None
  end.
(** the vector that an instruction constructs, destroys or clears *)
Definition constructs (i : instr) : option string :=
  match i with
  | ICall _ _ f [OName x _] _ => if (f =? "vector") || (f =? "~vector") || (f =? "clear") then Some x else None
  | _ => None
  end.
Definition text (bs : list block) : list (string * list instr) := map (fun b => (b_name b, b_instrs b)) bs.
Lemma text_find bs b : dget (text bs) b = option_map b_instrs (find_block bs b).
Proof. induction bs as [|x bs IH]; [reflexivity|]. cbn. destruct (b =? b_name x); [reflexivity|exact IH]. Qed.
Lemma text_removed bs l h bs' : remove_edge bs l h = Ok bs' -> text bs' = text bs.
Proof. unfold remove_edge. intros H. ok H a A. ok H b B. ok H c C. ok H d D. injection H as <-. unfold text. now rewrite map_map. Qed.
Lemma text_setup blks bs : setup_blocks blks = Ok bs -> text bs = blks.
Proof.
  unfold setup_blocks. intros H. ok H ts T. destruct forallb; [|discriminate]. injection H as <-. unfold text. rewrite map_map. cbn.
  rewrite <- (map_id blks) at 2. apply map_ext. now intros [].
Qed.
Lemma change_havoc U s i s' x : lstep U s i = Some (Next s') -> sm s' x <> sm s x ->
  In x (havoc_name i) \/ result_of i = Some x \/ constructs i = Some x.
Proof.
  intros L N.
  assert (PUT : forall (f : string -> option val) y v, put f y v x <> f x -> y = x).
  { intros f y v. unfold put. destruct (y =? x) eqn:E; [intros _; now apply String.eqb_eq|congruence]. }
  destruct i as [y t|y ptr o|v o|op y a b|c y a b|op y a|y ptr f args t|t|c t e|[o|]|]; cbn in L; try discriminate L.
  - injection L as <-. cbn in N. apply PUT in N. subst. auto.
  - destruct o as [z [|]| | |]; try discriminate L. destruct (sm s z) as [w|]; [|discriminate L]. injection L as <-.
    destruct ptr; cbn in N; [|congruence]. apply PUT in N. subst. auto.
  - destruct o as [z [|]| | |]; try discriminate L. destruct (_ && _); [|discriminate L]. destruct (getv s v) as [w|]; [|destruct (is_address v); [|discriminate L]]; injection L as <-;
    cbn in N; apply PUT in N; subst; left; now left.
  - destruct (getv s a) as [[n| | | |]|]; try discriminate L. destruct (getv s b) as [[m| | | |]|]; try discriminate L.
    destruct (agrees_bin op n m); [|discriminate L]. destruct (bin32 op n m); [|discriminate L]. injection L as <-. cbn in N. congruence.
  - destruct (getv s a) as [[n| | | |]|]; try discriminate L. destruct (getv s b) as [[m| | | |]|]; try discriminate L.
    destruct (agrees_cmp c n m); [|discriminate L]. destruct (cmp32 c n m); [|discriminate L]. injection L as <-. cbn in N. congruence.
  - destruct (is_address a).
    { destruct (op =? "bitcast"); [|discriminate L]. injection L as <-. cbn in N. apply PUT in N. subst. auto. }
    destruct (getv s a) as [[n| | | |]|]; try discriminate L. destruct (_ && _); [|discriminate L]. injection L as <-. cbn in N. congruence.
  - cbn. destruct (f =? "push_back").
    + destruct args as [|[z [|]| | |] [|e [|]]]; try discriminate L. destruct (cells s z); [|discriminate L].
      destruct (sm s z) as [[| |l| |]|]; try discriminate L. destruct (getv s e) as [w|]; [|discriminate L]. injection L as <-.
      cbn in N. apply PUT in N. subst. left. now left.
    + destruct ((f =? "vector") || (f =? "~vector") || (f =? "clear")).
      { destruct args as [|[z [|]| | |] [|]]; try discriminate L. destruct (cells s z); [|discriminate L]. injection L as <-.
        cbn in N. apply PUT in N. subst. auto. }
      destruct (mapO (getv s) args) as [vs|]; [|discriminate L]. destruct (call_val U f vs) as [w|]; [|discriminate L]. injection L as <-.
      destruct ptr; cbn in N; [|congruence]. apply PUT in N. subst. auto.
  - destruct (getv s c) as [[| | | |]|]; discriminate L.
  - destruct (getv s o); discriminate L.
Qed.
Theorem C32_havocs_partial : forall U f bs los, graph_of f = Ok (bs, los) ->
  Forall2 (fun rl lo => forall b is i s s' x,
    In b (rl_header rl :: rl_body rl ++ rl_exits rl ++ rl_latches rl) -> dget (lf_blocks f) b = Some is -> In i is ->
    lstep U s i = Some (Next s') -> sm s' x <> sm s x ->
    In x (lo_havocs lo) \/ result_of i = Some x \/ constructs i = Some x) (lf_loops f) los.
Proof.
  intros U f bs los G. unfold graph_of in G. ok G bs0 ST0. apply text_setup in ST0. revert bs0 bs los ST0 G.
  induction (lf_loops f) as [|rl rls IH]; intros bs0 bs los ST0 G; cbn in G.
  - injection G as <- <-. constructor.
  - ok G p P. ok G q Q. injection G as <- <-. destruct p as [bs1 lo]. cbn [fst snd] in *. unfold loop_of in P.
    ok P h H. ok P body B. ok P exits E. ok P latches L. ok P bs' R. injection P as <- <-.
    constructor.
    + intros b is i s s' x IB D II ST N. destruct (change_havoc U s i s' x ST N) as [C|C]; [left|now right]. cbn [lo_havocs].
      rewrite <- ST0, text_find in D. destruct (find_block bs0 b) as [bl|] eqn:FB; [|discriminate D]. injection D as <-.
      assert (M : forall l r, mapR (get_block bs0) l = Ok r -> In b l -> In bl r).
      { intros l. induction l as [|a l IHl]; intros r0 M0 I0; [destruct I0|]. cbn in M0. ok M0 a' A. ok M0 r' RR. injection M0 as <-.
        destruct I0 as [->|I0]; [|right; eauto]. left. unfold get_block in A. rewrite FB in A. congruence. }
      change (In x (flat_map (fun b0 => flat_map havoc_name (b_instrs b0)) (h :: body ++ exits ++ latches))).
      apply in_flat_map. exists bl. split; [|apply in_flat_map; eauto].
      destruct IB as [<-|IB]; [left; unfold get_block in H; rewrite FB in H; congruence|]. right.
      apply in_app_iff in IB as [IB|IB]; [|apply in_app_iff in IB as [IB|IB]]; apply in_app_iff; [left; eauto|right..]; apply in_app_iff; [left|right]; eauto.
    + apply (IH bs' (fst q) (snd q)); [|now rewrite Q; destruct q].
      rewrite <- ST0. clear -R. revert bs0 R. induction (rl_latches rl) as [|l ls IH]; intros bs0 R; [now injection R as <-|].
      ok R bs2 E. rewrite <- (text_removed _ _ _ _ E). now apply IH.
Qed.
Print Assumptions C32_havocs_partial.
(** a loop that appends to a list *)
Example C32_havocs_nontrivial : exists bs los,
  graph_of {| lf_name := "app"; lf_args := []; lf_ret := TInt; lf_sret := None;
    lf_blocks := [("entry", [IAlloca "l" (TList TInt); IBr "w"]); ("w", [ICall "" false "push_back" [OName "l" true; OInt 1] (TList TInt); IBr "w"])];
    lf_loops := [{| rl_header := "w"; rl_body := []; rl_exits := []; rl_latches := ["w"] |}] |} = Ok (bs, los) /\
  map lo_havocs los = [["l"; "l"]] /\
  exists s, lstep mathU {| sp := fun _ => None; sm := fun _ => Some (VList []); cells := fun _ => true |}
    (ICall "" false "push_back" [OName "l" true; OInt 1] (TList TInt)) = Some (Next s) /\ sm s "l" = Some (VList [VInt 1]).
Proof. do 2 eexists. split; [vm_compute; reflexivity|]. split; [reflexivity|]. eexists. split; reflexivity. Qed.

(** *** Where it is false

    A function is lifted wrongly: its verification condition holds for the given
    meaning of the predicates and all values of the variables, but the summary is
    false of what the function returns. *)
Definition lunsound (f : lfunc) : Prop :=
  exists P G vc a w args vs,
    lfunc_vc [] [] [] f = Ok vc /\ holds (ll_interp P) G vc /\
    (* not vacuously: there are values of these types *)
    (exists r, fits G r) /\
    lreturns mathU f a w /\
    sort_objs (lf_args f) = Ok args /\
    mapO (fun o => match var_name o with Ok x => a x | Err _ => None end) args = Some vs /\
    i_call (ll_interp P) (lf_name f ++ "_ps") (vs ++ [w]) = Some (VBool false).
Lemma some_fits G : forallb (fun p => simple_ty (snd p)) G = true -> exists r, fits G r.
Proof.
  intros H. exists (fun x => match dget G x with Some t => Some (some_val t) | None => None end).
  intros x t E. rewrite E. eexists. split; [reflexivity|]. apply some_val_ok. rewrite forallb_forall in H.
  apply dget_in in E. apply H in E. cbn in E. destruct t as [| |[]| | | | |]; try discriminate E; reflexivity.
Qed.
Ltac refute_tac n := split; [apply some_fits; reflexivity|split; [exists n; vm_compute; reflexivity|
  split; [vm_compute; reflexivity|split; [vm_compute; reflexivity|vm_compute; reflexivity]]]].

(** Without the AddEmptyBlocks pass, an [if] without [else] right at the start: the
    path that skips it has an empty path condition, which is left out of the
    disjunction where the paths meet (llvm.py:1081-1091), so that path is taken to be
    impossible.
    [int f(int n) { int r = 1; if (n > 0) r = 2; return r; }] is said to return 2. *)
Definition skip_if : lfunc := {| lf_name := "f"; lf_args := [var_obj TInt "n"]; lf_ret := TInt; lf_sret := None;
  lf_blocks :=
    [("entry", [IAlloca "r" TInt; IStore (OInt 1) (OName "r" true);
                ICmp "sgt" "c" (OName "n" false) (OInt 0); ICondBr (OName "c" false) "if.then" "if.end"]);
     ("if.then", [IStore (OInt 2) (OName "r" true); IBr "if.end"]);
     ("if.end", [ILoad "t" false (OName "r" true); IRet (Some (OName "t" false))])];
  lf_loops := [] |}.
Theorem C31_refuted : lunsound skip_if /\ lf_loops skip_if = [].
Proof.
  split; [|reflexivity].
  exists (fun _ vs => match vs with [_; VInt r] => (r =? 2)%Z | _ => false end), [("n", TInt)].
  eexists. exists (args1 0), (VInt 1). do 2 eexists. split; [vm_compute; reflexivity|]. split; [|refute_tac 5%nat].
  intros r F. ints F "n". cbn -[Z.ltb]. rewrite E. cbn -[Z.ltb]. destruct (0 <? z)%Z; reflexivity.
Qed.
Print Assumptions C31_refuted.

(** Two loops that write the same variable: what is known about the variable after
    the first loop is assumed about its unknown value in the second one, because the
    havoc uses the same variable (llvm.py:1000-1017, 1187-1193).
    [int f(int n) { int i = 0; while (i > 0) i = 0; while (i < n) i = i + 1; return i; }]
    is said to return 0. *)
Definition two_loopsf : lfunc := {| lf_name := "f"; lf_args := [var_obj TInt "n"]; lf_ret := TInt; lf_sret := None;
  lf_blocks :=
    [("entry", [IAlloca "i" TInt; IStore (OInt 0) (OName "i" true); IBr "c1"]);
     ("c1", [ILoad "t0" false (OName "i" true); ICmp "sgt" "d0" (OName "t0" false) (OInt 0); ICondBr (OName "d0" false) "bb" "bb1"]);
     ("b1", [IStore (OInt 0) (OName "i" true); IBr "c1"]);
     ("e1", [IBr "c2"]);
     ("c2", [ILoad "t1" false (OName "i" true); ICmp "slt" "d1" (OName "t1" false) (OName "n" false); ICondBr (OName "d1" false) "bb2" "bb3"]);
     ("b2", [ILoad "t2" false (OName "i" true); IBin "add" "t3" (OName "t2" false) (OInt 1); IStore (OName "t3" false) (OName "i" true); IBr "c2"]);
     ("e2", [ILoad "t4" false (OName "i" true); IRet (Some (OName "t4" false))]);
     ("bb", [IBr "b1"]); ("bb1", [IBr "e1"]); ("bb2", [IBr "b2"]); ("bb3", [IBr "e2"])];
  lf_loops := [{| rl_header := "c1"; rl_body := ["bb"]; rl_exits := ["c1"]; rl_latches := ["b1"] |};
               {| rl_header := "c2"; rl_body := ["bb2"]; rl_exits := ["c2"]; rl_latches := ["b2"] |}] |}.
Theorem C32_refuted_two_loops : lunsound two_loopsf.
Proof.
  exists (fun f vs => if (f =? "f_inv0")%string then match vs with VInt i :: _ => (i =? 0)%Z | _ => false end
                      else if is_inv f then true
                      else match vs with [VInt n; VInt r] => (r =? 0)%Z | _ => false end).
  exists [("n", TInt); ("i", TInt); ("f_rv", TInt); ("t0", TInt); ("d0", TBool)].
  eexists. exists (args1 3), (VInt 3). do 2 eexists. split; [vm_compute; reflexivity|]. split; [|refute_tac 30%nat].
  intros r F. ints F "n". ints F "i". ints F "f_rv". ints F "t0". destruct (F "d0" TBool eq_refl) as ([|d0| | |] & E3 & ?); try discriminate.
  cbn -[Z.ltb Z.eqb Z.add]. rewrite ?E, ?E0, ?E1, ?E2, ?E3. cbn -[Z.ltb Z.eqb Z.add].
  destruct (0 <? z0)%Z eqn:A1, (z0 =? 0)%Z eqn:A2, (z0 <? z)%Z; cbn -[Z.eqb Z.add]; try reflexivity; try (exfalso; lia).
Qed.
Print Assumptions C32_refuted_two_loops.

(** Nested loops, in which the inner loop always writes a variable that the outer one
    havocs too: what the outer invariant says about it is still assumed at the head of
    the inner loop.
    [int f(int n) { int i = 0, j = 0; while (i < n) { while (j < 1) j = 1; i = i + 1; } return j; }]
    is said to return 0. *)
Definition nestedf : lfunc := {| lf_name := "f"; lf_args := [var_obj TInt "n"]; lf_ret := TInt; lf_sret := None;
  lf_blocks :=
    [("entry", [IAlloca "i" TInt; IAlloca "j" TInt; IStore (OInt 0) (OName "i" true); IStore (OInt 0) (OName "j" true); IBr "c1"]);
     ("c1", [ILoad "t0" false (OName "i" true); ICmp "slt" "d0" (OName "t0" false) (OName "n" false); ICondBr (OName "d0" false) "bb" "bb1"]);
     ("b1", [IBr "c2"]);
     ("c2", [ILoad "t1" false (OName "j" true); ICmp "slt" "d1" (OName "t1" false) (OInt 1); ICondBr (OName "d1" false) "bb2" "bb3"]);
     ("b2", [IStore (OInt 1) (OName "j" true); IBr "c2"]);
     ("e2", [ILoad "t2" false (OName "i" true); IBin "add" "t3" (OName "t2" false) (OInt 1); IStore (OName "t3" false) (OName "i" true); IBr "c1"]);
     ("e1", [ILoad "t4" false (OName "j" true); IRet (Some (OName "t4" false))]);
     ("bb", [IBr "b1"]); ("bb1", [IBr "e1"]); ("bb2", [IBr "b2"]); ("bb3", [IBr "e2"])];
  lf_loops := [{| rl_header := "c1"; rl_body := ["bb"; "b1"; "bb2"; "b2"; "bb3"; "c2"]; rl_exits := ["c1"]; rl_latches := ["e2"] |};
               {| rl_header := "c2"; rl_body := ["bb2"]; rl_exits := ["c2"]; rl_latches := ["b2"] |}] |}.
Theorem C32_refuted_nested : lunsound nestedf.
Proof.
  exists (fun f vs => if (f =? "f_inv0")%string then match vs with VInt i :: VInt j :: _ => (j =? 0)%Z | _ => false end
                      else if is_inv f then true
                      else match vs with [VInt n; VInt r] => (r =? 0)%Z | _ => false end).
  exists [("n", TInt); ("i", TInt); ("j", TInt); ("f_rv", TInt); ("t0", TInt); ("d0", TBool)].
  eexists. exists (args1 3), (VInt 1). do 2 eexists. split; [vm_compute; reflexivity|]. split; [|refute_tac 40%nat].
  intros r F. ints F "n". ints F "i". ints F "j". ints F "f_rv". ints F "t0". destruct (F "d0" TBool eq_refl) as ([|d0| | |] & E4 & ?); try discriminate.
  cbn -[Z.ltb Z.eqb Z.add]. rewrite ?E, ?E0, ?E1, ?E2, ?E3, ?E4. cbn -[Z.ltb Z.eqb Z.add].
  destruct (z1 =? 0)%Z eqn:A1, (z1 <? 1)%Z eqn:A2, (z0 <? z)%Z; cbn -[Z.eqb Z.add]; rewrite ?A1; cbn; try reflexivity; try (exfalso; lia).
Qed.
Print Assumptions C32_refuted_nested.

(** ** C33: arithmetic

    Full property: the expression made for an instruction has the value that the
    instruction computes on 32-bit integers.  Proved: it has exactly when no overflow
    happens; for [sdiv] and [srem] with a positive divisor exactly when the dividend
    is not negative or is divisible.  ([I] is any interpretation in which [div] and
    [mod] round down for positive divisors, as in SMT-LIB.)  [bin32 op x y = Some z]
    says that the instruction computes [z]; it is undefined for division by zero. *)
Definition as_intended (op : string) (x y : Z) : Prop :=
  if op =? "add" then in32 (x + y) = true
  else if op =? "sub" then in32 (x - y) = true
  else if op =? "mul" then in32 (x * y) = true
  else 0 <= x \/ x mod y = 0.

Lemma wrap32_iff z : wrap32 z = z <-> in32 z = true.
Proof.
  unfold wrap32, in32. rewrite andb_true_iff, Z.leb_le, Z.ltb_lt. split; intros H.
  - pose proof (Z.mod_pos_bound (z + 2147483648) 4294967296 ltac:(lia)). lia.
  - rewrite Z.mod_small; lia.
Qed.
Lemma quot_iff x y : 0 < y -> (x / y = Z.quot x y <-> 0 <= x \/ x mod y = 0).
Proof.
  intros Y. destruct (Z.le_gt_cases 0 x) as [X|X].
  - rewrite Z.quot_div_nonneg by lia. tauto.
  - assert (E : Z.quot x y = - ((- x) / y)).
    { replace x with (- - x) at 1 by lia. rewrite Z.quot_opp_l by lia. rewrite Z.quot_div_nonneg by lia. reflexivity. }
    rewrite E. replace x with (- - x) at 1 by lia. destruct (Z.eq_dec ((- x) mod y) 0) as [M|M].
    + rewrite Z.div_opp_l_z by lia. assert (x mod y = 0). { replace x with (- - x) by lia. now rewrite Z.mod_opp_l_z by lia. } tauto.
    + rewrite Z.div_opp_l_nz by lia. split; [lia|]. intros [?|M']; [lia|]. exfalso. apply M. now rewrite Z.mod_opp_l_z by lia.
Qed.
Lemma rem_iff x y : 0 < y -> (x mod y = Z.rem x y <-> 0 <= x \/ x mod y = 0).
Proof.
  intros Y. rewrite <- quot_iff by exact Y. pose proof (Z.quot_rem' x y). pose proof (Z.div_mod x y ltac:(lia)). nia.
Qed.

Theorem C33_partial : forall I r op a b o x y z,
  llibrary I ->
  bin_obj op a b = Ok o ->
  eval I r (o_src a) = Some (VInt x) -> eval I r (o_src b) = Some (VInt y) ->
  (op = "sdiv" \/ op = "srem" -> 0 < y) ->
  bin32 op x y = Some z ->
  (eval I r (o_src o) = Some (VInt z) <-> as_intended op x y).
Proof.
  intros I r op a b o x y z LIB B Ea Eb POS R. unfold bin_obj in B. destruct (_ || _); [discriminate|].
  unfold as_intended, bin32 in *.
  destruct (String.eqb_spec op "add") as [->|N1]; [|destruct (String.eqb_spec op "sub") as [->|N2]; [|destruct (String.eqb_spec op "mul") as [->|N3];
    [|destruct (String.eqb_spec op "sdiv") as [->|N4]; [|destruct (String.eqb_spec op "srem") as [->|N5]; [|discriminate]]]]];
  apply int_op_ok in B; subst o; cbn; rewrite Ea, Eb; cbn.
  - rewrite <- wrap32_iff. injection R as <-. split; congruence.
  - rewrite <- wrap32_iff. injection R as <-. split; congruence.
  - rewrite <- wrap32_iff. injection R as <-. split; congruence.
  - specialize (POS (or_introl eq_refl)). cbn [orb] in R. destruct ((y =? 0)%Z || _); [discriminate|]. injection R as <-.
    rewrite (lib_div _ (ll_lib _ LIB)) by lia. cbn. rewrite <- quot_iff by lia. split; congruence.
  - specialize (POS (or_intror eq_refl)). cbn [orb] in R. destruct ((y =? 0)%Z || _); [discriminate|]. injection R as <-.
    rewrite (ll_mod _ LIB) by lia. cbn. rewrite <- rem_iff by lia. split; congruence.
Qed.
Print Assumptions C33_partial.

(** Comparisons: the signed ones always have the right value, [ult] has it exactly
    when the operands have the same sign; [ule], [ugt] and [uge] are refused. *)
Theorem C33_partial_compare : forall I r cond a b o x y c,
  cmp_obj cond a b = Ok o ->
  eval I r (o_src a) = Some (VInt x) -> eval I r (o_src b) = Some (VInt y) ->
  in32 x = true -> in32 y = true ->
  cmp32 cond x y = Some c ->
  (eval I r (o_src o) = Some (VBool c) <-> (cond = "ult" -> (0 <= x <-> 0 <= y))).
Proof.
  intros I r cond a b o x y c B Ea Eb X Y R. unfold cmp_obj in B. destruct (_ || _); [discriminate|].
  unfold in32 in X, Y. rewrite andb_true_iff, Z.leb_le, Z.ltb_lt in X, Y.
  unfold cmp32 in R.
  destruct (String.eqb_spec cond "eq") as [->|N1]; [|destruct (String.eqb_spec cond "ne") as [->|N2]; [|destruct (String.eqb_spec cond "sgt") as [->|N3];
    [|destruct (String.eqb_spec cond "sle") as [->|N4]; [|destruct (String.eqb_spec cond "slt") as [->|N5]; [|destruct (String.eqb_spec cond "ult") as [->|N6];
      [|destruct (String.eqb_spec cond "sge") as [->|N7]; [|discriminate]]]]]]]; cbn -[Z.ltb Z.leb Z.eqb] in R; cbn [orb] in B.
  - apply int_eq_ok in B. subst o. cbn. rewrite Ea, Eb. cbn. split; [discriminate|congruence].
  - ok B e Ee. ok B n En. injection B as <-. apply int_eq_ok in Ee. subst e. apply not_ok in En. subst n. cbn. rewrite Ea, Eb. cbn.
    split; [discriminate|congruence].
  - apply int_cmp_ok in B. subst o. cbn. rewrite Ea, Eb. cbn. split; [discriminate|congruence].
  - apply int_cmp_ok in B. subst o. cbn. rewrite Ea, Eb. cbn. split; [discriminate|congruence].
  - apply int_cmp_ok in B. subst o. cbn. rewrite Ea, Eb. cbn. split; [discriminate|congruence].
  - apply int_cmp_ok in B. subst o. cbn. rewrite Ea, Eb. cbn -[Z.ltb]. injection R as <-.
    assert (U : forall v, -2147483648 <= v < 2147483648 -> unsigned v = if (v <? 0)%Z then v + 4294967296 else v).
    { intros v V. unfold unsigned. destruct (Z.ltb_spec v 0).
      - symmetry. apply Zmod_unique with (-1); lia.
      - apply Z.mod_small. lia. }
    rewrite (U x X), (U y Y). split.
    + intros K _. assert (K' : (x <? y)%Z = ((if (x <? 0)%Z then x + 4294967296 else x) <? (if (y <? 0)%Z then y + 4294967296 else y))%Z) by congruence.
      destruct (Z.ltb_spec x 0), (Z.ltb_spec y 0), (Z.ltb_spec x y); try lia;
      match type of K' with _ = (?u <? ?v)%Z => destruct (Z.ltb_spec u v) end; try discriminate K'; lia.
    + intros K. specialize (K eq_refl). do 2 f_equal. destruct (Z.ltb_spec x 0), (Z.ltb_spec y 0); try lia; destruct (Z.ltb_spec x y);
      match goal with |- _ = (?u <? ?v)%Z => destruct (Z.ltb_spec u v) end; lia || reflexivity.
  - apply int_cmp_ok in B. subst o. cbn. rewrite Ea, Eb. cbn. split; [discriminate|congruence].
Qed.
Print Assumptions C33_partial_compare.

Definition xy (x y : Z) : env := fun n => if n =? "x" then Some (VInt x) else Some (VInt y).
Definition xyI : interp := lib_interp (fun _ _ => true).
(** where both sides of the equivalences are true *)
Example C33_example : exists o o',
  bin_obj "srem" (var_obj TInt "x") (var_obj TInt "y") = Ok o /\ cmp_obj "ult" (var_obj TInt "x") (var_obj TInt "y") = Ok o' /\
  bin32 "srem" 17 5 = Some 2 /\ eval xyI (xy 17 5) (o_src o) = Some (VInt 2) /\ as_intended "srem" 17 5 /\
  cmp32 "ult" (-3) (-2) = Some true /\ eval xyI (xy (-3) (-2)) (o_src o') = Some (VBool true).
Proof. do 2 eexists. split; [vm_compute; reflexivity|]. split; [vm_compute; reflexivity|]. repeat split. left. lia. Qed.

(** the values differ: [2147483647 + 1], [-7 / 2], [-7 % 2], and [-1 < 1] unsigned *)
Definition differs (op : string) (x y z : Z) : Prop := exists o,
  bin_obj op (var_obj TInt "x") (var_obj TInt "y") = Ok o /\ bin32 op x y = Some z /\
  forall I, llibrary I -> eval I (xy x y) (o_src o) <> Some (VInt z).
Theorem C33_refuted :
  differs "add" 2147483647 1 (-2147483648) /\ differs "sdiv" (-7) 2 (-3) /\ differs "srem" (-7) 2 (-1) /\
  exists o, cmp_obj "ult" (var_obj TInt "x") (var_obj TInt "y") = Ok o /\ cmp32 "ult" (-1) 1 = Some false /\
    forall I, eval I (xy (-1) 1) (o_src o) = Some (VBool true).
Proof.
  split; [|split; [|split]].
  - eexists. split; [vm_compute; reflexivity|]. split; [reflexivity|]. intros I LIB K. cbn in K. discriminate.
  - eexists. split; [vm_compute; reflexivity|]. split; [reflexivity|]. intros I LIB K. cbn in K.
    rewrite (lib_div _ (ll_lib _ LIB)) in K by lia. discriminate.
  - eexists. split; [vm_compute; reflexivity|]. split; [reflexivity|]. intros I LIB K. cbn in K.
    rewrite (ll_mod _ LIB) in K by lia. discriminate.
  - eexists. split; [vm_compute; reflexivity|]. split; [reflexivity|]. reflexivity.
Qed.
Print Assumptions C33_refuted.

(** ** C34: every block once, after its predecessors

    Full property: if removing the back edges of the given loops leaves no cycle (the
    blocks can be numbered so that all other edges go up), every block is visited
    exactly once, after all its predecessors along other edges.  Proved for functions
    on which the visitor raises no exception and in which no latch jumps to its header
    in two ways ([C34_refuted]); [edge], [back] and [single_back] are in LlProofs7. *)
Theorem C34_partial : forall uninterp grammars pre f bs los v,
  NoDup (map fst (lf_blocks f)) ->
  single_back f ->
  (exists rank : string -> nat, forall p b, edge f p b -> ~ back f p b -> (rank p < rank b)%nat) ->
  analyze_func uninterp grammars pre f = Ok (bs, los, v) ->
  NoDup (v_done v) /\
  (forall x, In x (v_done v) <-> In x (map fst (lf_blocks f))) /\
  forall l1 x l2, v_done v = l1 ++ x :: l2 -> forall p, edge f p x -> ~ back f p x -> In p l1.
Proof. intros. eapply visits; eauto. Qed.
Print Assumptions C34_partial.

(** the loop over the blocks stops when nothing changes; the bound on the number of
    passes that the model has does not matter *)
Theorem C34_bound : forall fn ret args sret uninterp loops grammars blocks pre n,
  (length blocks < n)%nat ->
  passes fn ret args sret uninterp loops grammars blocks n (new_visitor pre) =
  passes fn ret args sret uninterp loops grammars blocks (S (length blocks)) (new_visitor pre).
Proof.
  intros. eapply (passes_enough fn ret args sret uninterp loops grammars blocks (new_visitor pre)); [reflexivity|constructor| |]; cbn [new_visitor v_done length]; lia.
Qed.
Print Assumptions C34_bound.

Definition twice_rank (x : string) : nat :=
  match x with "entry" => 0 | "for.cond" => 1 | "bb" => 2 | "for.body" => 3 | "for.inc" => 4 | "bb1" => 2 | _ => 3 end.
Lemma twice_edges p b : edge twicef p b ->
  In (p, b) [("entry","for.cond");("for.cond","bb1");("for.cond","bb");("for.body","for.inc");("for.inc","for.cond");("bb","for.body");("bb1","for.end")].
Proof.
  intros (is & ts & IN & T & B). cbn in IN.
  repeat (destruct IN as [[= <- <-]|IN]; [cbn in T; injection T as <-; cbn in B; repeat (destruct B as [<-|B]; [cbn; tauto|]); destruct B|]). destruct IN.
Qed.
Example C34_example : exists bs los v, analyze_func [] [] [] twicef = Ok (bs, los, v) /\
  v_done v = ["entry"; "for.cond"; "bb"; "bb1"; "for.body"; "for.inc"; "for.end"] /\
  NoDup (map fst (lf_blocks twicef)) /\ single_back twicef /\
  (forall p b, edge twicef p b -> ~ back twicef p b -> (twice_rank p < twice_rank b)%nat).
Proof.
  do 3 eexists. split; [vm_compute; reflexivity|]. split; [reflexivity|]. split.
  { apply nodupb_ok. reflexivity. }
  split.
  - intros p b is ts (rl & [<-|[]] & <- & [<-|[]]) IN T. cbn in IN.
    repeat (destruct IN as [IN|IN]; [try discriminate IN; injection IN as <-; cbn in T; injection T as <-; cbn; lia|]). destruct IN.
  - intros p b E NB. apply twice_edges in E. cbn in E.
    repeat (destruct E as [[= <- <-]|E]; [try (cbn; lia)|]); try destruct E.
    exfalso. apply NB. eexists. split; [left; reflexivity|]. split; [reflexivity|left; reflexivity].
Qed.

(** A latch that jumps to its header in two ways: only one of the two edges is
    removed, the header waits for its latch, and nothing from the header on is ever
    visited.  Nothing is asserted about the function then. *)
Definition double_back : lfunc := {| lf_name := "f"; lf_args := [var_obj TInt "n"]; lf_ret := TInt; lf_sret := None;
  lf_blocks :=
    [("entry", [IAlloca "i" TInt; IStore (OInt 0) (OName "i" true); IBr "head"]);
     ("head", [ILoad "t0" false (OName "i" true); ICmp "slt" "c" (OName "t0" false) (OName "n" false);
               ICondBr (OName "c" false) "body" "end"]);
     ("body", [IStore (OName "n" false) (OName "i" true); ICondBr (OName "c" false) "head" "head"]);
     ("end", [ILoad "t1" false (OName "i" true); IRet (Some (OName "t1" false))])];
  lf_loops := [{| rl_header := "head"; rl_body := []; rl_exits := ["head"]; rl_latches := ["body"] |}] |}.
Theorem C34_refuted : exists bs los v, analyze_func [] [] [] double_back = Ok (bs, los, v) /\
  v_done v = ["entry"] /\
  NoDup (map fst (lf_blocks double_back)) /\
  exists rank : string -> nat, forall p b, edge double_back p b -> ~ back double_back p b -> (rank p < rank b)%nat.
Proof.
  do 3 eexists. split; [vm_compute; reflexivity|]. split; [reflexivity|]. split; [apply nodupb_ok; reflexivity|].
  exists (fun x => match x with "entry" => 0 | "head" => 1 | _ => 2 end)%nat.
  intros p b (is & ts & IN & T & B) NB. cbn in IN.
  repeat (destruct IN as [[= <- <-]|IN]; [cbn in T; injection T as <-; cbn in B; repeat (destruct B as [<-|B]; [try (cbn; lia)|]); try destruct B|]); try destruct IN.
  all: exfalso; apply NB; eexists; split; [left; reflexivity|]; split; [reflexivity|left; reflexivity].
Qed.
Print Assumptions C34_refuted.
