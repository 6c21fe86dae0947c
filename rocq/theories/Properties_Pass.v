(** C49: the AddEmptyBlocks pass. *)

From Coq Require Import Ascii String List ZArith Bool Lia.
From Verif Require Import Ast Semantics Dict UtilModel UtilProofs IrModel ObjModel PyModel PySem PyProofs PyProofs2 PyProofs3 PyProofs4 Properties_Py.
From Verif Require Import LlModel LlSem LlProofs LlProofs2 LlProofs6 LlProofs7 Properties_Ll PassModel PassProofs.
Import ListNotations.
Local Open Scope Z_scope.
Local Open Scope string_scope.
Local Open Scope list_scope.

(** The names given to new blocks are different and not in use. *)
Definition new_names (fresh : nat -> string) (blks : list (string * list instr)) : Prop :=
  (forall i j, fresh i = fresh j -> i = j) /\ forall i, ~ In (fresh i) (map fst blks).
(** LLVM's rule that branches go to blocks of the function *)
Definition closed (blks : list (string * list instr)) : Prop :=
  forall b is t, In (b, is) blks -> In t (jump_targets is) -> In t (map fst blks).
Definition pass (fresh : nat -> string) (f : lfunc) : lfunc :=
  {| lf_name := lf_name f; lf_args := lf_args f; lf_ret := lf_ret f; lf_sret := lf_sret f;
     lf_blocks := add_empty_blocks fresh (lf_blocks f); lf_loops := lf_loops f |}.

(** The changed function returns exactly what the function returned. *)
Theorem C49_executions : forall U fresh f a w,
  lf_blocks f <> [] -> new_names fresh (lf_blocks f) -> closed (lf_blocks f) ->
  (lreturns U (pass fresh f) a w <-> lreturns U f a w).
Proof.
  intros U fresh f a w NE [INJ NEW] CL. unfold lreturns.
  assert (E : entry_of (pass fresh f) = entry_of f).
  { unfold entry_of, pass, add_empty_blocks. cbn. destruct (lf_blocks f) as [|[b is] l]; [contradiction|reflexivity]. }
  rewrite E. change (start_store (pass fresh f) a) with (start_store f a). change (sret_name (pass fresh f)) with (sret_name f). cbn [pass lf_blocks]. split; intros [n R].
  - eapply pass_runs_back; eauto. unfold entry_of. destruct (lf_blocks f) as [|[b is] l]; [contradiction|now left].
  - eapply pass_runs; eauto.
Qed.
Print Assumptions C49_executions.

(** Afterwards a conditional branch goes to two different blocks that nothing else
    jumps to and that do nothing. *)
Theorem C49_edges : forall fresh blks bs,
  NoDup (map fst blks) -> new_names fresh blks -> closed blks ->
  setup_blocks (add_empty_blocks fresh blks) = Ok bs ->
  forall b c t e, In b bs -> last_instr (b_instrs b) = Some (ICondBr c t e) ->
  t <> e /\ forall x, x = t \/ x = e ->
    exists xb, In xb bs /\ b_name xb = x /\ b_preds xb = [b_name b] /\ exists y, b_instrs xb = [IBr y].
Proof. intros fresh blks bs ND [INJ NEW] CL ST. exact (pass_graph fresh INJ (fun _ _ => None) blks NEW CL bs ND ST). Qed.
Print Assumptions C49_edges.

(** Together with C32: a condition that is computed for the changed function speaks
    about the executions of the function that was written. *)
Theorem C49_sound : forall fresh I U an uninterp grammars pre f bs los a w vc,
  lf_blocks f <> [] -> new_names fresh (lf_blocks f) -> closed (lf_blocks f) ->
  llibrary I ->
  (forall g vs, smem g (uninterp ++ maths) = true -> i_call I g vs = U g vs /\ exists z, U g vs = Some (VInt z)) ->
  (forall n vs, exists b, i_call I (inv_name (lf_name f) n) vs = Some (VBool b)) ->
  Forall (fun e => (pl true e = true /\ incl (fv e) (arg_names f true ++ arg_names f false)) /\
                   forall r, fits (a_prim an ++ a_ptr an) r -> exists b, eval I r e = Some (VBool b)) pre ->
  Forall (fun e => eval I a e = Some (VBool true)) pre ->
  graph_of (pass fresh f) = Ok (bs, los) ->
  lsupported an uninterp grammars (pass fresh f) bs los (nonempty pre) = true ->
  lfunc_vc uninterp grammars pre (pass fresh f) = Ok vc ->
  holds I (a_prim an ++ a_ptr an) vc ->
  (forall o x, In o (lf_args f) -> var_name o = Ok x -> exists v, a x = Some v /\ of_type (o_ty o) v = true) ->
  lreturns U f a w ->
  exists args vs, sort_objs (lf_args f) = Ok args /\
    mapO (fun o => match var_name o with Ok x => a x | Err _ => None end) args = Some vs /\
    i_call I (lf_name f ++ "_ps") (vs ++ [w]) = Some (VBool true).
Proof.
  intros fresh I U an uninterp grammars pre f bs los a w vc NE NEW CL LIB UNI INVT PRE PRET GO SUP VC HO ARGS RET.
  refine (C32_partial I U an uninterp grammars pre (pass fresh f) bs los a w vc LIB UNI INVT PRE PRET GO SUP VC HO ARGS _).
  apply C49_executions; auto.
Qed.
Print Assumptions C49_sound.

(** *** The function of [C31_refuted], which is lifted wrongly without the pass *)
Definition ename (n : nat) : string := ("new" ++ string_of_nat n)%string.
Lemma ename_new blks : forallb (fun b => match fst b with String "n"%char _ => false | _ => true end) blks = true -> new_names ename blks.
Proof.
  intros H. split.
  - intros i j E. apply string_of_nat_inj. now injection E.
  - intros i IN. apply in_map_iff in IN as ([x c] & E & IN). rewrite forallb_forall in H. apply H in IN. cbn in E, IN. rewrite E in IN. discriminate.
Qed.
Lemma skip_if_closed : closed (lf_blocks skip_if).
Proof. intros b is t [[= <- <-]|[[= <- <-]|[[= <- <-]|[]]]]; cbn; intuition (subst; auto). Qed.

Definition skip_an : annot := {|
  a_prim := [("n", TInt); ("c", TBool); ("t", TInt); ("f_rv", TInt)]; a_ptr := [("r", TInt)];
  a_avail := let A := [(true, "r"); (false, "n")] in
             [("entry", [(false, "n")]); ("if.then", A); ("if.end", A); ("new0", A); ("new1", A)];
  a_bare := ["entry"]; a_order := ["entry"; "new0"; "new1"; "if.then"; "if.end"];
  a_loose := []; a_junk := []; a_lits := []; a_result := []; a_clean := [] |}.
Definition skipP (f : string) (vs : list val) : bool :=
  match vs with [VInt n; VInt r] => (r =? if (0 <? n)%Z then 2 else 1)%Z | _ => false end.
Lemma skip_graph : exists bs los, graph_of (pass ename skip_if) = Ok (bs, los) /\ lsupported skip_an [] [] (pass ename skip_if) bs los false = true.
Proof. do 2 eexists. split; vm_compute; reflexivity. Qed.
Lemma skip_vc : exists vc, lfunc_vc [] [] [] (pass ename skip_if) = Ok vc /\ holds (ll_interp skipP) (a_prim skip_an ++ a_ptr skip_an) vc.
Proof.
  eexists. split; [vm_compute; reflexivity|]. intros r F. ints F "n".
  cbn -[Z.ltb]. rewrite E. cbn -[Z.ltb]. destruct (0 <? z)%Z eqn:C; cbn -[Z.ltb]; rewrite ?C; reflexivity.
Qed.
Example C49_example : forall n w, lreturns mathU skip_if (args1 n) w -> w = VInt (if (0 <? n)%Z then 2 else 1).
Proof.
  intros n w R. destruct skip_vc as (vc & FV & HO). destruct skip_graph as (bs & los & GO & SUP).
  assert (K : exists args vs, sort_objs (lf_args skip_if) = Ok args /\
     mapO (fun o => match var_name o with Ok x0 => args1 n x0 | Err _ => None end) args = Some vs /\
     i_call (ll_interp skipP) ("f" ++ "_ps") (vs ++ [w]) = Some (VBool true)).
  { refine (C49_sound ename (ll_interp skipP) mathU skip_an [] [] [] skip_if bs los (args1 n) w vc _ (ename_new (lf_blocks skip_if) eq_refl) skip_if_closed (ll_interp_ok _) _ _ (Forall_nil _) (Forall_nil _) GO SUP FV HO _ R).
    - discriminate.
    - intros g vs; apply mathU_ok.
    - intros k vs. exists (skipP (inv_name "f" k) vs). reflexivity.
    - intros o x [<-|[]] [= <-]; eexists; split; reflexivity. }
  destruct K as (args & vs & S & M & C). vm_compute in S. injection S as <-. cbn in M. injection M as <-.
  cbn -[Z.ltb] in C. injection C as C. destruct w; try discriminate C. f_equal. now apply Z.eqb_eq.
Qed.
Example C49_example_runs : lreturns mathU skip_if (args1 (-3)) (VInt 1) /\ lreturns mathU (pass ename skip_if) (args1 (-3)) (VInt 1).
Proof. split; exists 6%nat; vm_compute; reflexivity. Qed.
Example C49_example_edges : exists bs, setup_blocks (lf_blocks (pass ename skip_if)) = Ok bs /\
  exists b, In b bs /\ last_instr (b_instrs b) = Some (ICondBr (OName "c" false) "new0" "new1").
Proof. eexists. split; [vm_compute; reflexivity|]. eexists. split; [left; reflexivity|reflexivity]. Qed.
