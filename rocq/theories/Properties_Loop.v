(** C48: loop analysis. *)

From Coq Require Import String Ascii List ZArith Bool Lia.
From Verif Require Import Ast Semantics Dict UtilModel ObjModel PyModel PySem PyProofs Properties_Py.
From Verif Require Import LlModel LlSem LlProofs2 LlProofs7 Properties_Ll LoopModel LoopProofs.
Import ListNotations.
Local Open Scope Z_scope.
Local Open Scope string_scope.
Local Open Scope list_scope.

(** ** Natural loops *)

Section Spec.
Variables (E : string -> string -> Prop) (h : string) (latch : string -> Prop).
(** [b] can reach the latch [l] without passing through the header *)
Inductive to_latch (l : string) : string -> Prop :=
| at_latch : l <> h -> to_latch l l
| step_latch b c : b <> h -> E b c -> to_latch l c -> to_latch l b.
Definition in_loop (b : string) : Prop := b = h \/ exists l, latch l /\ to_latch l b.
Definition leaves (b : string) : Prop := in_loop b /\ exists c, E b c /\ ~ in_loop c.

(** what LLVM prints is about this loop *)
Record describes (bs : list lblock) : Prop := {
  de_blocks : forall x, In x (map k_name bs) <-> in_loop x;
  de_once : NoDup (map k_name bs);
  de_header : forall b, In b bs -> (k_header b = true <-> k_name b = h);
  de_latch : forall b, In b bs -> (k_latch b = true <-> latch (k_name b));
  de_exit : forall b, In b bs -> (k_exiting b = true <-> leaves (k_name b)) }.

(** what is read is about this loop *)
Record found (rl : raw_loop) : Prop := {
  fo_header : rl_header rl = h;
  fo_latches : forall x, In x (rl_latches rl) <-> in_loop x /\ latch x;
  fo_exits : forall x, In x (rl_exits rl) <-> leaves x;
  fo_body : forall x, In x (rl_body rl) <-> in_loop x /\ x <> h /\ ~ latch x /\ ~ leaves x;
  (* the blocks whose stores are havocked (llvm.py:438-460) *)
  fo_all : forall x, In x (rl_header rl :: rl_body rl ++ rl_exits rl ++ rl_latches rl) <-> in_loop x }.
End Spec.

(** ** C48

    Full property: for every natural loop, what is read from the output of LLVM's
    analysis is the loop.  [E] are the edges of the control-flow graph, each line of
    the output describes one natural loop.  Proved for functions in which no block has
    the word [latch] in its name ([C48_refuted]), and in which names need no quotes. *)
Theorem C48_partial : forall E file before fn ps rest specs,
  file = before ++ (fn, ps) :: rest ->
  ~ In fn (map fst before) -> ~ In fn (map fst rest) ->
  (* names of functions and blocks without white space, quotes, commas, % and < *)
  Forall (fun q => plain_name (fst q) = true /\ Forall good_loop (snd q)) file ->
  Forall (fun p => Forall (fun b => contains "latch" (k_name b) = false) (p_blocks p)) ps ->
  Forall2 (fun p s => describes E (fst s) (snd s) (p_blocks p)) ps specs ->
  exists rls, parse_loops (flat_map print_func file) fn = Ok rls /\
              Forall2 (fun s rl => found E (fst s) (snd s) rl) specs rls.
Proof.
  intros E file before fn ps rest specs EF N1 N2 F NL D.
  assert (K : forall bs h latch, describes E h latch bs -> map k_name (filter k_header bs) = [h]).
  { intros bs h latch [D1 D2 D3 _ _]. assert (IN : In h (map k_name bs)) by (apply D1; now left).
    clear D1. induction bs as [|b bs IH]; [destruct IN|]. cbn [map filter]. inversion D2 as [|? ? NI ND]; subst.
    destruct (k_header b) eqn:KH.
    - pose proof (proj1 (D3 b (or_introl eq_refl)) KH) as EH. cbn [map]. rewrite EH. f_equal.
      assert (Z : forall bs', incl bs' bs -> filter k_header bs' = []).
      { induction bs' as [|c bs' IH']; intros I; [reflexivity|]. cbn [filter]. destruct (k_header c) eqn:KC.
        - exfalso. apply NI. rewrite EH, <- (proj1 (D3 c (or_intror (I c (or_introl eq_refl)))) KC). apply in_map, I. now left.
        - apply IH'. intros x X. apply I. now right. }
      rewrite (Z bs (incl_refl _)). reflexivity.
    - destruct IN as [EH|IN]. + apply (D3 b (or_introl eq_refl)) in EH. congruence.
      + apply IH; auto. intros c C. apply D3. now right. }
  exists (map (fun q => read_loop (fst q) (p_blocks (snd q))) (combine (map fst specs) ps)). split.
  - eapply parse_loops_ok; eauto. clear - D K. induction D as [|p s ps specs D1 D IH]; [reflexivity|]. cbn [map].
    rewrite (K _ _ _ D1), IH. reflexivity.
  - clear - D NL K. revert NL. induction D as [|p s ps specs D1 D IH]; intros NL; [constructor|]. inversion NL as [|? ? NL1 NL2]; subst.
    cbn [map combine fst snd]. constructor; [|auto]. clear IH D NL2 NL. destruct s as [h latch]. cbn [fst snd] in *.
    set (bs := p_blocks p) in *. destruct D1 as [D1 D2 D3 D4 D5]. rewrite Forall_forall in NL1.
    assert (FI : forall q x, In x (map k_name (filter q bs)) <-> exists b, In b bs /\ k_name b = x /\ q b = true).
    { intros q x. rewrite in_map_iff. split; intros (b & A & B); exists b; [apply filter_In in B | rewrite filter_In]; tauto. }
    assert (EX : forall x, in_loop E h latch x -> exists b, In b bs /\ k_name b = x).
    { intros x X. apply D1 in X. apply in_map_iff in X as (b & ? & ?). eauto. }
    assert (IN : forall b, In b bs -> in_loop E h latch (k_name b)) by (intros b B; apply D1; now apply in_map).
    assert (LA : forall x, In x (map k_name (filter k_latch bs)) <-> in_loop E h latch x /\ latch x).
    { intros x. rewrite FI. split.
      - intros (b & B & <- & Q). split; [auto|now apply D4].
      - intros [X L]. destruct (EX x X) as (b & B & <-). exists b. split; auto. split; auto. now apply D4. }
    assert (LE : forall x, In x (map k_name (filter k_exiting bs)) <-> leaves E h latch x).
    { intros x. rewrite FI. split.
      - intros (b & B & <- & Q). now apply D5.
      - intros L. destruct (EX x (proj1 L)) as (b & B & <-). exists b. split; auto. split; auto. now apply D5. }
    assert (BO : forall x, In x (rl_body (read_loop h bs)) <-> in_loop E h latch x /\ x <> h /\ ~ latch x /\ ~ leaves E h latch x).
    { intros x. unfold read_loop. cbn [rl_body]. rewrite FI. split.
      - intros (b & B & <- & Q). rewrite !andb_true_iff, !negb_true_iff, orb_false_iff in Q. destruct Q as ((Q1 & Q2) & _ & Q3).
        split; [auto|]. split; [intros Z; apply (D3 b B) in Z; congruence|]. split; [intros Z; apply (D4 b B) in Z; congruence|].
        intros Z; apply (D5 b B) in Z; congruence.
      - intros (X & A & B & C). destruct (EX x X) as (b & IB & <-). exists b. split; auto. split; auto.
        rewrite !andb_true_iff, !negb_true_iff, (NL1 b IB). cbn [orb].
        split; [split|].
        + destruct (k_header b) eqn:Z; auto. apply (D3 b IB) in Z. contradiction.
        + destruct (k_exiting b) eqn:Z; auto. apply (D5 b IB) in Z. contradiction.
        + destruct (k_latch b) eqn:Z; auto. apply (D4 b IB) in Z. contradiction. }
    constructor; auto. intros x. cbn [read_loop rl_header rl_exits rl_latches]. cbn [In]. rewrite !in_app_iff, BO, LE, LA. split.
    + intros [<-|[X|[X|X]]]; [now left|tauto|apply X|tauto].
    + intros X. destruct (string_dec h x) as [->|N]; [now left|]. right. destruct (EX x X) as (b & B & <-).
      destruct (k_latch b) eqn:Z1; [right; right; split; auto; now apply (D4 b B)|].
      destruct (k_exiting b) eqn:Z2; [right; left; now apply (D5 b B)|].
      left. split; auto. split; [congruence|]. split; intros Z; [apply (D4 b B) in Z | apply (D5 b B) in Z]; congruence.
Qed.
Print Assumptions C48_partial.

(** *** The loop of [twicef] (Properties_Ll), in a file with two functions *)
Definition blk (n : string) (a b c : bool) : lblock := {| k_name := n; k_header := a; k_latch := b; k_exiting := c |}.
Definition twice_line : ploop := {| p_indent := 0; p_depth := "1";
  p_blocks := [blk "for.cond" true false true; blk "bb" false false false; blk "for.body" false false false; blk "for.inc" false true false] |}.
Definition twice_file : list (string * list ploop) := [("other", [twice_line]); ("tw", [twice_line])].
Definition twice_latch (x : string) : Prop := x = "for.inc".
Lemma twice_in x : in_loop (edge twicef) "for.cond" twice_latch x <-> In x ["for.cond"; "bb"; "for.body"; "for.inc"].
Proof.
  assert (K : forall x, to_latch (edge twicef) "for.cond" "for.inc" x -> In x ["bb"; "for.body"; "for.inc"]).
  { intros y T. induction T as [|b c N ED T IH]; [cbn; auto|]. apply twice_edges in ED. cbn in ED.
    repeat (destruct ED as [[= <- <-]|ED]; [cbn in IH |- *; intuition congruence|]). destruct ED. }
  assert (ED : forall p b, In (p, b) [("bb","for.body");("for.body","for.inc")] -> edge twicef p b).
  { intros p b [[= <- <-]|[[= <- <-]|[]]]; do 2 eexists; (split; [cbn; tauto|split; [reflexivity|cbn; auto]]). }
  assert (T1 : to_latch (edge twicef) "for.cond" "for.inc" "for.inc") by (constructor; discriminate).
  assert (T2 : to_latch (edge twicef) "for.cond" "for.inc" "for.body") by (eapply step_latch; [discriminate|apply ED; cbn; auto|exact T1]).
  assert (T3 : to_latch (edge twicef) "for.cond" "for.inc" "bb") by (eapply step_latch; [discriminate|apply ED; cbn; auto|exact T2]).
  unfold in_loop, twice_latch. split.
  - intros [->|(l & -> & T)]; [cbn; auto|]. right. now apply K.
  - intros [<-|[<-|[<-|[<-|[]]]]]; [now left| | |]; right; eexists; (split; [reflexivity|assumption]).
Qed.
Lemma twice_describes : describes (edge twicef) "for.cond" twice_latch (p_blocks twice_line).
Proof.
  constructor.
  - intros x. rewrite twice_in. reflexivity.
  - apply nodupb_ok. reflexivity.
  - intros b [<-|[<-|[<-|[<-|[]]]]]; cbn; split; congruence.
  - intros b [<-|[<-|[<-|[<-|[]]]]]; cbn; unfold twice_latch; split; congruence.
  - assert (NE : forall c, ~ In c ["for.cond"; "bb"; "for.body"; "for.inc"] -> forall p, edge twicef p c -> p = "for.cond" \/ p = "bb1").
    { intros c N p ED. apply twice_edges in ED. cbn in ED, N.
      repeat (destruct ED as [[= <- <-]|ED]; [tauto|]). destruct ED. }
    intros b [<-|[<-|[<-|[<-|[]]]]]; cbn [k_exiting k_name blk p_blocks twice_line]; split; try discriminate.
    + intros _. split; [apply twice_in; cbn; auto|]. exists "bb1". split.
      * do 2 eexists. split; [cbn; right; left; reflexivity|split; [reflexivity|cbn; auto]].
      * rewrite twice_in. cbn. intuition discriminate.
    + reflexivity.
    + intros (_ & c & ED & N). rewrite twice_in in N. destruct (NE c N _ ED); discriminate.
    + intros (_ & c & ED & N). rewrite twice_in in N. destruct (NE c N _ ED); discriminate.
    + intros (_ & c & ED & N). rewrite twice_in in N. destruct (NE c N _ ED); discriminate.
Qed.
Example C48_example :
  describes (edge twicef) "for.cond" twice_latch (p_blocks twice_line) /\
  Forall (fun q => plain_name (fst q) = true /\ Forall good_loop (snd q)) twice_file /\
  parse_loops (flat_map print_func twice_file) "tw" = Ok (lf_loops twicef).
Proof.
  split; [apply twice_describes|]. split; [|vm_compute; reflexivity].
  assert (G : Forall good_loop [twice_line]). { apply Forall_cons; [|apply Forall_nil]. repeat split; try discriminate. repeat constructor. }
  apply Forall_cons; [split; [reflexivity|exact G]|]. apply Forall_cons; [split; [reflexivity|exact G]|]. apply Forall_nil.
Qed.

(** *** Where it is false

    The word [latch] in a block's name keeps the block out of the body although it is
    no latch: [contains "latch"] where [contains "<latch>"] is meant (llvm.py:535).
    Then its stores are not havocked, and the function is lifted wrongly:
    [int f(int n) { int s = 0; for (i = 0; i < n; i++) { latched: s = 1; } return s; }]
    is said to return 0. *)
Definition latched_line : ploop := {| p_indent := 0; p_depth := "1";
  p_blocks := [blk "for.cond" true false true; blk "bb" false false false; blk "latched" false false false; blk "for.inc" false true false] |}.
Definition latchedf (rls : list raw_loop) : lfunc := {| lf_name := "f"; lf_args := [var_obj TInt "n"]; lf_ret := TInt; lf_sret := None;
  lf_blocks :=
    [("entry", [IAlloca "i" TInt; IAlloca "s" TInt; IStore (OInt 0) (OName "i" true); IStore (OInt 0) (OName "s" true); IBr "for.cond"]);
     ("for.cond", [ILoad "t0" false (OName "i" true); ICmp "slt" "c" (OName "t0" false) (OName "n" false);
                   ICondBr (OName "c" false) "bb" "bb1"]);
     ("latched", [IStore (OInt 1) (OName "s" true); IBr "for.inc"]);
     ("for.inc", [ILoad "t3" false (OName "i" true); IBin "add" "inc" (OName "t3" false) (OInt 1);
                  IStore (OName "inc" false) (OName "i" true); IBr "for.cond"]);
     ("for.end", [ILoad "t4" false (OName "s" true); IRet (Some (OName "t4" false))]);
     ("bb", [IBr "latched"]); ("bb1", [IBr "for.end"])];
  lf_loops := rls |}.
Theorem C48_refuted : exists rls rl,
  good_loop latched_line /\
  parse_loops (flat_map print_func [("f", [latched_line])]) "f" = Ok rls /\ rls = [rl] /\
  (* the block is in the loop, but not reported *)
  to_latch (edge (latchedf rls)) "for.cond" "for.inc" "latched" /\
  ~ In "latched" (rl_header rl :: rl_body rl ++ rl_exits rl ++ rl_latches rl) /\
  lunsound (latchedf rls).
Proof.
  do 2 eexists. split.
  { repeat split; try discriminate. repeat constructor. }
  split; [vm_compute; reflexivity|]. split; [reflexivity|]. split.
  { eapply step_latch; [discriminate| |apply at_latch; discriminate]. do 2 eexists. split; [cbn; right; right; left; reflexivity|]. split; [reflexivity|cbn; auto]. }
  split; [cbn; intuition discriminate|].
  exists (fun f vs => is_inv f || match vs with [VInt n; VInt r] => (r =? 0)%Z | _ => false end).
  exists [("n", TInt); ("i", TInt); ("f_rv", TInt)].
  eexists. exists (args1 3), (VInt 1). do 2 eexists. split; [vm_compute; reflexivity|]. split; [|refute_tac 40%nat].
  intros r F. ints F "n". ints F "i". ints F "f_rv".
  cbn -[Z.ltb Z.eqb Z.add]. rewrite ?E, ?E0, ?E1. cbn -[Z.ltb Z.eqb Z.add].
  destruct (z0 <? z)%Z; reflexivity.
Qed.
Print Assumptions C48_refuted.
