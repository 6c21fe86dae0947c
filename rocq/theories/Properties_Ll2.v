(** C32 for a benchmark of /repo, as clang compiled it. *)

From Coq Require Import String List ZArith Bool Lia.
From Verif Require Import Ast Semantics Dict ObjModel PyModel PySem OptProofs2 LlModel LlSem LlProofs LlProofs7 Properties_Py Properties_Ll.
Import ListNotations.
Local Open Scope Z_scope.
Local Open Scope string_scope.
Local Open Scope list_scope.

(** ** benchmarks/llama/cpp/transformer/transformer_part4.ll

<<
    vector<int> transformer_part4(vector<int> input1, vector<int> input2, int hidden_dim) {
      vector<int> output;
      for (int i = 0; i < hidden_dim; i++) output.push_back(input1[i] * input2[i]);
      return output;
    }
>>
    The instructions of the function with the types that [parse_type_ref_to_obj]
    (ir.py:623-651) gives to them, the loop of transformer_part4.loops, and the driver
    benchmarks/llama/driver/transformer_part4_driver.py: the invariant is about
    [hidden_dim], [i], [input1], [input2] and the result, and the precondition is
    [0 <= hidden_dim <= length input1, length input2]. *)
Definition LInt := TList TInt.
Definition LLInt := TList (TList TInt).
Definition part4 : lfunc := {| lf_name := "transformer_part4";
  lf_args := [var_obj LInt "input1"; var_obj LInt "input2"; var_obj TInt "hidden_dim"];
  lf_ret := LLInt; lf_sret := Some (var_obj LLInt "agg.result");
  lf_blocks :=
    [("entry", [IAlloca "result.ptr" TBool; IAlloca "hidden_dim.addr" TInt; IAlloca "nrvo" TBool; IAlloca "i" TInt;
                IAlloca "ref.tmp" TInt; IAlloca "exn.slot" TBool; IAlloca "ehselector.slot" TInt;
                IConv "bitcast" "i1" (OName "agg.result" true); IStore (OName "i1" true) (OName "result.ptr" true);
                IStore (OName "hidden_dim" false) (OName "hidden_dim.addr" true); IStore OFalse (OName "nrvo" true);
                ICall "" false "vector" [OName "agg.result" true] LInt;
                IStore (OInt 0) (OName "i" true); IBr "for.cond"]);
     ("for.cond", [ILoad "i2" false (OName "i" true); ILoad "i3" false (OName "hidden_dim.addr" true);
                   ICmp "slt" "cmp" (OName "i2" false) (OName "i3" false);
                   ICondBr (OName "cmp" false) "for.body" "for.end"]);
     ("for.body", [ILoad "i4" false (OName "i" true); IConv "sext" "conv" (OName "i4" false);
                   ICall "call" true "operator[]" [OName "input1" true; OName "conv" false] TInt;
                   ILoad "i5" false (OName "call" true); ILoad "i6" false (OName "i" true);
                   IConv "sext" "conv1" (OName "i6" false);
                   ICall "call2" true "operator[]" [OName "input2" true; OName "conv1" false] TInt;
                   ILoad "i7" false (OName "call2" true); IBin "mul" "mul" (OName "i5" false) (OName "i7" false);
                   IStore (OName "mul" false) (OName "ref.tmp" true);
                   ICall "" false "push_back" [OName "agg.result" true; OName "ref.tmp" true] LLInt;
                   IBr "invoke.cont"]);
     ("invoke.cont", [IBr "for.inc"]);
     ("for.inc", [ILoad "i8" false (OName "i" true); IBin "add" "inc" (OName "i8" false) (OInt 1);
                  IStore (OName "inc" false) (OName "i" true); IBr "for.cond"]);
     ("for.end", [IStore OTrue (OName "nrvo" true); ILoad "nrvo.val" false (OName "nrvo" true);
                  ICondBr (OName "nrvo.val" false) "nrvo.skipdtor" "nrvo.unused"]);
     ("nrvo.unused", [ICall "" false "~vector" [OName "agg.result" true] LInt; IBr "nrvo.skipdtor"]);
     ("nrvo.skipdtor", [IRet None])];
  lf_loops := [{| rl_header := "for.cond"; rl_body := ["for.body"; "invoke.cont"]; rl_exits := ["for.cond"]; rl_latches := ["for.inc"] |}] |}.
Definition part4_grammars : dict (list string * list obj) :=
  [("transformer_part4_inv0",
    ([], [var_obj TInt "hidden_dim"; var_obj TInt "i"; var_obj LInt "input1"; var_obj LInt "input2"; var_obj LInt "agg.result"]))].
Definition part4_pre : list expr :=
  let len := fun x => Node KCall TInt [Atom (PStr "list_length"); mkVar x LInt] in
  let ge := fun a b => Node KGe TBool [a; b] in
  [ge (mkVar "hidden_dim" TInt) (IntLit 0); ge (len "input1") (mkVar "hidden_dim" TInt); ge (len "input2") (mkVar "hidden_dim" TInt)].

Definition part4an : annot := {|
  a_prim := map (fun x => (x, TInt)) ["hidden_dim"; "i2"; "i3"; "i4"; "conv"; "i5"; "i6"; "conv1"; "i7"; "mul"; "i8"; "inc"] ++
            [("cmp", TBool); ("nrvo.val", TBool)];
  a_ptr := map (fun x => (x, TInt)) ["hidden_dim.addr"; "i"; "ref.tmp"; "call"; "call2"] ++
           map (fun x => (x, LInt)) ["input1"; "input2"; "agg.result"; "transformer_part4_rv"] ++ [("nrvo", TBool)];
  a_avail := let A := [(true, "input1"); (true, "input2"); (false, "hidden_dim")] in
             let L := (true, "agg.result") :: (true, "hidden_dim.addr") :: (true, "i") :: A in
             [("entry", A); ("for.cond", L); ("for.body", L); ("invoke.cont", L); ("for.inc", L); ("for.end", L);
              ("nrvo.unused", L); ("nrvo.skipdtor", L)];
  a_bare := [];
  a_order := ["entry"; "for.cond"; "for.body"; "invoke.cont"; "for.inc"; "for.end"; "nrvo.unused"; "nrvo.skipdtor"];
  a_loose := ["agg.result"; "transformer_part4_rv"];
  a_junk := ["result.ptr"; "exn.slot"; "ehselector.slot"; "i1"];
  a_lits := ["nrvo"; "nrvo.val"];
  a_result := ["for.cond"; "for.end"; "nrvo.unused"; "nrvo.skipdtor"]; a_clean := [] |}.

Lemma part4_graph : exists bs los, graph_of part4 = Ok (bs, los) /\
  lsupported part4an [] part4_grammars part4 bs los (nonempty part4_pre) = true.
Proof. do 2 eexists. split; vm_compute; reflexivity. Qed.

(** the products of the first [n] elements *)
Definition times (v w : val) : val := match v, w with VInt x, VInt y => VInt (x * y) | _, _ => VInt 0 end.
Fixpoint products (n : nat) (l m : list val) : list val :=
  match n, l, m with
  | S n, v :: l, w :: m => times v w :: products n l m
  | _, _, _ => []
  end.
(** the summary: the result is the list of the products; the invariant: it is the list
    of the first [i] products *)
Definition part4P (f : string) (vs : list val) : bool :=
  match vs with
  | [VInt h; VList a; VList b; VList r] => val_eqb (VList r) (VList (products (Z.to_nat h) a b))
  | [VInt h; VInt i; VList a; VList b; VList r] =>
      (0 <=? i)%Z && (i <=? h)%Z && val_eqb (VList r) (VList (products (Z.to_nat i) a b))
  | _ => false
  end.
Lemma products_S n : forall l m v w, nth_error l n = Some v -> nth_error m n = Some w ->
  products (S n) l m = products n l m ++ [times v w].
Proof.
  induction n; intros [|x l] [|y m] v w A B; try discriminate; cbn in *.
  - injection A as <-. injection B as <-. reflexivity.
  - f_equal. now apply IHn.
Qed.
Ltac lists H n := let l := fresh "l" in let E := fresh "E" in let T := fresh "T" in
  destruct (H n LInt eq_refl) as ([| |l| |] & E & T); try discriminate.
Lemma get_elem l i : of_type LInt (VList l) = true -> exists z,
  (if (i <? 0)%Z then Some (VInt 0) else match nth_error l (Z.to_nat i) with Some v => Some v | None => Some (VInt 0) end) = Some (VInt z) /\
  (0 <= i < Z.of_nat (length l) -> nth_error l (Z.to_nat i) = Some (VInt z)).
Proof.
  intros T. destruct (i <? 0)%Z eqn:N; [exists 0; split; [reflexivity|lia]|].
  destruct (nth_error l (Z.to_nat i)) as [v|] eqn:E.
  - cbn in T. rewrite forallb_forall in T. pose proof (T v (nth_error_In _ _ E)) as V. destruct v as [z| | | |]; try discriminate V. now exists z.
  - apply nth_error_None in E. exists 0. split; [reflexivity|lia].
Qed.
Lemma part4_vc : match lfunc_vc [] part4_grammars part4_pre part4 with
                 | Ok vc => holds (ll_interp part4P) (a_prim part4an ++ a_ptr part4an) vc
                 | Err _ => False end.
Proof.
  match goal with |- match ?r with _ => _ end => let v := eval vm_compute in r in
    change (match v with Ok vc => holds (ll_interp part4P) (a_prim part4an ++ a_ptr part4an) vc | Err _ => False end) end.
  cbv beta iota. intros r F. ints F "hidden_dim". ints F "i". lists F "input1". lists F "input2". lists F "agg.result".
  destruct (get_elem l z0 T) as (x & X1 & X2). destruct (get_elem l0 z0 T0) as (y & Y1 & Y2).
  cbn -[Z.ltb Z.leb Z.eqb Z.mul Z.add part4P products Z.to_nat Z.of_nat].
  rewrite ?E, ?E0, ?E1, ?E2, ?E3, ?X1, ?Y1.
  cbn -[Z.ltb Z.leb Z.eqb Z.mul Z.add part4P products Z.to_nat Z.of_nat].
  do 2 f_equal. rewrite ?andb_true_r, ?orb_false_r.
  assert (forall a b : bool, (a = true -> b = true) -> implb a b = true) as IMP by (intros [] []; cbn; auto).
  rewrite !andb_true_iff. repeat split; apply IMP; rewrite ?andb_true_iff; intros Q.
  - cbn -[Z.ltb Z.leb]. destruct Q as [[? ?] ?]. rewrite H1. reflexivity.
  - destruct Q as [[[[Q1 Q2] Q3] Q4] Q5]. cbn [part4P] in *. rewrite !andb_true_iff in *. destruct Q5 as [[Q5 Q6] Q7].
    apply val_eqb_eq in Q7. injection Q7 as ->. repeat split; [lia..|].
    replace (Z.to_nat (z0 + 1)) with (S (Z.to_nat z0)) by lia.
    rewrite (products_S _ _ _ (VInt x) (VInt y)) by (apply X2 || apply Y2; lia). apply val_eqb_refl.
  - destruct Q as [[[[Q1 Q2] Q3] Q4] Q5]. cbn [part4P] in *. rewrite !andb_true_iff in *. destruct Q5 as [[Q5 Q6] Q7].
    apply negb_true_iff in Q1. replace z with z0 by lia. exact Q7.
Qed.

Definition part4_args (h : Z) (a b : list val) : env := fun x =>
  if x =? "hidden_dim" then Some (VInt h) else if x =? "input1" then Some (VList a) else if x =? "input2" then Some (VList b) else None.

(** Whatever the function returns for vectors of at least [hidden_dim] integers is the
    list of the products. *)
Theorem C32_part4 : forall h a b w,
  0 <= h <= Z.of_nat (length a) -> h <= Z.of_nat (length b) ->
  of_type LInt (VList a) = true -> of_type LInt (VList b) = true ->
  lreturns mathU part4 (part4_args h a b) w ->
  w = VList (products (Z.to_nat h) a b).
Proof.
  intros h a b w Ha Hb Ta Tb R. pose proof part4_vc as HO. destruct (lfunc_vc [] part4_grammars part4_pre part4) as [vc|] eqn:FV; [|easy].
  destruct part4_graph as (bs & los & GO & SUP).
  assert (K : exists args vs, sort_objs (lf_args part4) = Ok args /\
     mapO (fun o => match var_name o with Ok x0 => part4_args h a b x0 | Err _ => None end) args = Some vs /\
     i_call (ll_interp part4P) ("transformer_part4" ++ "_ps") (vs ++ [w]) = Some (VBool true)).
  { refine (C32_partial (ll_interp part4P) mathU part4an [] part4_grammars part4_pre part4 bs los (part4_args h a b) w vc (ll_interp_ok _) _ _ _ _ GO SUP FV HO _ R).
    - intros g vs; apply mathU_ok.
    - intros k vs. exists (part4P (inv_name "transformer_part4" k) vs). unfold ll_interp. cbn [i_call].
      destruct k; reflexivity.
    - assert (V : incl ["hidden_dim"; "input1"; "input2"] (arg_names part4 true ++ arg_names part4 false)) by (intros y Y; vm_compute in Y |- *; tauto).
      repeat (apply Forall_cons || apply Forall_nil); (split; [split; [reflexivity|intros y Y; apply V; vm_compute in Y |- *; tauto]|]).
      all: clear - V; intros r F; ints F "hidden_dim"; lists F "input1"; lists F "input2"; cbn -[Z.leb Z.of_nat]; rewrite ?E, ?E0, ?E1; cbn -[Z.leb Z.of_nat]; eexists; reflexivity.
    - repeat constructor; cbn -[Z.leb Z.of_nat]; do 2 f_equal; lia.
    - clear - Ta Tb. intros o x [<-|[<-|[<-|[]]]] [= <-]; (eexists; split; [reflexivity|]); [exact Ta|exact Tb|reflexivity]. }
  clear FV HO. destruct K as (args & vs & S & M & C). vm_compute in S. injection S as <-. cbn in M. injection M as <-.
  change (Some (VBool (part4P "transformer_part4_ps" [VInt h; VList a; VList b; w])) = Some (VBool true)) in C.
  injection C as C. destruct w; try discriminate C. exact (val_eqb_eq (VList _) (VList _) C).
Qed.
Print Assumptions C32_part4.
Example C32_part4_runs : lreturns mathU part4 (part4_args 2 (map VInt [2; 3; 4]) (map VInt [5; 6])) (VList (map VInt [10; 18])).
Proof. exists 30%nat. reflexivity. Qed.

(** ** A loop in a loop

<<
    int f(int n, int m) {
      int s = 0;
      for (int i = 0; i < n; i++) { int t = 0; for (int j = 0; j < m; j++) t++; s += t; }
      return s;
    }
>>
    as compiled with -O0 and with the empty blocks.  The invariant of the outer loop is
    about [i], [m], [n] and [s] only, as in the drivers of the benchmarks with nested
    loops. *)
Definition nestf : lfunc := {| lf_name := "f"; lf_args := [var_obj TInt "n"; var_obj TInt "m"]; lf_ret := TInt; lf_sret := None;
  lf_blocks :=
    [("entry", [IAlloca "s" TInt; IAlloca "i" TInt; IAlloca "t" TInt; IAlloca "j" TInt;
                IStore (OInt 0) (OName "s" true); IStore (OInt 0) (OName "i" true); IBr "for.cond"]);
     ("for.cond", [ILoad "i0" false (OName "i" true); ICmp "slt" "cmp" (OName "i0" false) (OName "n" false);
                   ICondBr (OName "cmp" false) "bb" "bb1"]);
     ("for.body", [IStore (OInt 0) (OName "t" true); IStore (OInt 0) (OName "j" true); IBr "for.cond1"]);
     ("for.cond1", [ILoad "i1" false (OName "j" true); ICmp "slt" "cmp2" (OName "i1" false) (OName "m" false);
                    ICondBr (OName "cmp2" false) "bb2" "bb3"]);
     ("for.body3", [ILoad "i2" false (OName "t" true); IBin "add" "inc" (OName "i2" false) (OInt 1);
                    IStore (OName "inc" false) (OName "t" true); IBr "for.inc"]);
     ("for.inc", [ILoad "i3" false (OName "j" true); IBin "add" "inc4" (OName "i3" false) (OInt 1);
                  IStore (OName "inc4" false) (OName "j" true); IBr "for.cond1"]);
     ("for.end", [ILoad "i4" false (OName "t" true); ILoad "i5" false (OName "s" true);
                  IBin "add" "add" (OName "i5" false) (OName "i4" false); IStore (OName "add" false) (OName "s" true); IBr "for.inc5"]);
     ("for.inc5", [ILoad "i6" false (OName "i" true); IBin "add" "inc6" (OName "i6" false) (OInt 1);
                   IStore (OName "inc6" false) (OName "i" true); IBr "for.cond"]);
     ("for.end7", [ILoad "i7" false (OName "s" true); IRet (Some (OName "i7" false))]);
     ("bb", [IBr "for.body"]); ("bb1", [IBr "for.end7"]); ("bb2", [IBr "for.body3"]); ("bb3", [IBr "for.end"])];
  lf_loops :=
    [{| rl_header := "for.cond"; rl_body := ["bb"; "for.body"; "for.cond1"; "bb2"; "for.body3"; "for.inc"; "bb3"; "for.end"];
        rl_exits := ["for.cond"]; rl_latches := ["for.inc5"] |};
     {| rl_header := "for.cond1"; rl_body := ["bb2"; "for.body3"]; rl_exits := ["for.cond1"]; rl_latches := ["for.inc"] |}] |}.
Definition nest_grammars : dict (list string * list obj) :=
  let v := var_obj TInt in
  [("f_inv0", ([], [v "i"; v "m"; v "n"; v "s"])); ("f_inv1", ([], [v "i"; v "j"; v "m"; v "n"; v "s"; v "t"]))].
Definition nestan : annot :=
  let A := [(false, "n"); (false, "m")] in
  let L := (true, "i") :: (true, "s") :: A in
  let M := (true, "j") :: (true, "t") :: L in {|
  a_prim := map (fun x => (x, TInt)) ["n"; "m"; "i0"; "i1"; "i2"; "i3"; "i4"; "i5"; "i6"; "i7"; "inc"; "inc4"; "inc6"; "add"; "f_rv"] ++
            [("cmp", TBool); ("cmp2", TBool)];
  a_ptr := map (fun x => (x, TInt)) ["s"; "i"; "t"; "j"];
  a_avail := [("entry", A); ("for.cond", L); ("bb", L); ("for.body", L); ("for.cond1", M); ("bb2", M); ("for.body3", M); ("for.inc", M);
              ("bb3", M); ("for.end", M); ("for.inc5", L); ("bb1", L); ("for.end7", L)];
  a_bare := ["entry"];
  a_order := ["entry"; "for.cond"; "bb"; "for.body"; "for.cond1"; "bb2"; "for.body3"; "for.inc"; "bb3"; "for.end"; "for.inc5"; "bb1"; "for.end7"];
  a_loose := []; a_junk := []; a_lits := []; a_result := [];
  a_clean := [("for.cond", [("entry", A)]); ("for.cond1", [("entry", A); ("for.cond", L); ("bb", L); ("for.body", L)])] |}.
Lemma nest_graph : exists bs los, graph_of nestf = Ok (bs, los) /\ lsupported nestan [] nest_grammars nestf bs los false = true.
Proof. do 2 eexists. split; vm_compute; reflexivity. Qed.
(** the outer invariant [s = i * max m 0 /\ 0 <= i <= max n 0], the inner one
    [t = j /\ 0 <= j <= max m 0], the summary [r = max n 0 * max m 0] *)
Definition nestP (f : string) (vs : list val) : bool :=
  match vs with
  | [VInt m; VInt n; VInt r] => (r =? Z.max n 0 * Z.max m 0)%Z
  | [VInt i; VInt m; VInt n; VInt s] => (s =? i * Z.max m 0)%Z && (i <=? Z.max n 0)%Z && (0 <=? i)%Z
  | [VInt i; VInt j; VInt m; VInt n; VInt s; VInt t] => (t =? j)%Z && (j <=? Z.max m 0)%Z && (0 <=? j)%Z
  | _ => false
  end.
Lemma nest_vc : match lfunc_vc [] nest_grammars [] nestf with
                | Ok vc => holds (ll_interp nestP) (a_prim nestan ++ a_ptr nestan) vc
                | Err _ => False end.
Proof.
  match goal with |- match ?r with _ => _ end => let v := eval vm_compute in r in
    change (match v with Ok vc => holds (ll_interp nestP) (a_prim nestan ++ a_ptr nestan) vc | Err _ => False end) end.
  cbv beta iota. intros r F. ints F "n". ints F "m". ints F "i". ints F "s". ints F "j". ints F "t".
  cbn -[Z.max Z.ltb Z.leb Z.eqb Z.mul Z.add]. rewrite ?E, ?E0, ?E1, ?E2, ?E3, ?E4. cbn -[Z.max Z.ltb Z.leb Z.eqb Z.mul Z.add].
  do 2 f_equal. assert (forall a b : bool, (a = true -> b = true) -> implb a b = true) as IMP by (intros [] []; cbn; auto).
  rewrite !andb_true_iff. repeat split; try apply IMP; rewrite ?andb_true_iff, ?negb_true_iff; intros; rewrite ?Z.eqb_eq, ?Z.leb_le, ?Z.ltb_lt, ?Z.ltb_ge in *;
    repeat split; try nia.
Qed.
Definition nest_args (n m : Z) : env := fun x => if x =? "n" then Some (VInt n) else if x =? "m" then Some (VInt m) else None.
Theorem C32_nested : forall n m w, lreturns mathU nestf (nest_args n m) w -> w = VInt (Z.max n 0 * Z.max m 0).
Proof.
  intros n m w R. pose proof nest_vc as HO. destruct (lfunc_vc [] nest_grammars [] nestf) as [vc|] eqn:FV; [|easy].
  destruct nest_graph as (bs & los & GO & SUP).
  assert (K : exists args vs, sort_objs (lf_args nestf) = Ok args /\
     mapO (fun o => match var_name o with Ok x0 => nest_args n m x0 | Err _ => None end) args = Some vs /\
     i_call (ll_interp nestP) ("f" ++ "_ps") (vs ++ [w]) = Some (VBool true)).
  { refine (C32_partial (ll_interp nestP) mathU nestan [] nest_grammars [] nestf bs los (nest_args n m) w vc (ll_interp_ok _) _ _ (Forall_nil _) (Forall_nil _) GO SUP FV HO _ R).
    - intros g vs; apply mathU_ok.
    - intros k vs. exists (nestP (inv_name "f" k) vs). reflexivity.
    - intros o x [<-|[<-|[]]] [= <-]; eexists; split; reflexivity. }
  clear FV HO. destruct K as (args & vs & S & M & C). vm_compute in S. injection S as <-. cbn in M. injection M as <-.
  cbn -[Z.max Z.mul] in C. injection C as C. destruct w; try discriminate C. f_equal. now apply Z.eqb_eq.
Qed.
Print Assumptions C32_nested.
Example C32_nested_runs : lreturns mathU nestf (nest_args 2 3) (VInt 6).
Proof. exists 100%nat. reflexivity. Qed.

(** ** Where it is false, with vectors *)

(** Functions that the frontend has no model for are skipped, whatever they change
    (llvm.py:1451-1490).
    [int f(int n) { vector<int> v; v.push_back(n); v.clear(); return v.size(); }] is
    said to return 1. *)
Definition clearf : lfunc := {| lf_name := "f"; lf_args := [var_obj TInt "n"]; lf_ret := TInt; lf_sret := None;
  lf_blocks :=
    [("entry", [IAlloca "v" LLInt; IAlloca "n.addr" TInt; IStore (OName "n" false) (OName "n.addr" true);
                ICall "" false "vector" [OName "v" true] LInt;
                ICall "" false "push_back" [OName "v" true; OName "n.addr" true] LLInt;
                ICall "" false "clear" [OName "v" true] LInt;
                ICall "call" false "size" [OName "v" true] TInt;
                ICall "" false "~vector" [OName "v" true] LInt;
                IRet (Some (OName "call" false))])];
  lf_loops := [] |}.
Theorem C32_refuted_skipped_call : lunsound clearf.
Proof.
  exists (fun _ vs => match vs with [_; VInt r] => (r =? 1)%Z | _ => false end), [("n", TInt)].
  eexists. exists (args1 7), (VInt 0). do 2 eexists. split; [vm_compute; reflexivity|]. split; [|refute_tac 5%nat].
  intros r F. ints F "n". cbn -[Z.ltb]. rewrite E. reflexivity.
Qed.
Print Assumptions C32_refuted_skipped_call.

(** A result that is written through a pointer: [ret void] makes the summary speak about
    the value at the head of the last loop that writes it (llvm.py:1406-1414), not about
    what is added to it after the loop.
    [vector<int> f(int n) { vector<int> r; while (r.size() < n) r.push_back(0); r.push_back(0); return r; }]
    is said to return a vector of [max n 0] elements. *)
Definition afterf : lfunc := {| lf_name := "f"; lf_args := [var_obj TInt "n"]; lf_ret := LLInt; lf_sret := Some (var_obj LLInt "agg.result");
  lf_blocks :=
    [("entry", [IAlloca "z" TInt; IStore (OInt 0) (OName "z" true); ICall "" false "vector" [OName "agg.result" true] LInt; IBr "c"]);
     ("c", [ICall "call" false "size" [OName "agg.result" true] TInt; ICmp "slt" "cmp" (OName "call" false) (OName "n" false);
            ICondBr (OName "cmp" false) "bb" "bb1"]);
     ("b", [ICall "" false "push_back" [OName "agg.result" true; OName "z" true] LLInt; IBr "c"]);
     ("e", [ICall "" false "push_back" [OName "agg.result" true; OName "z" true] LLInt; IRet None]);
     ("bb", [IBr "b"]); ("bb1", [IBr "e"])];
  lf_loops := [{| rl_header := "c"; rl_body := ["bb"]; rl_exits := ["c"]; rl_latches := ["b"] |}] |}.
Theorem C32_refuted_after_loop : lunsound afterf.
Proof.
  exists (fun _ vs => match vs with
                      | [VInt n; VList r] => (Z.of_nat (length r) =? Z.max n 0)%Z
                      | VList r :: VInt n :: _ => (Z.of_nat (length r) <=? Z.max n 0)%Z
                      | _ => false
                      end).
  exists [("n", TInt); ("z", TInt); ("agg.result", LInt); ("f_rv", LInt); ("call", TInt); ("cmp", TBool)].
  eexists. exists (args1 1), (VList [VInt 0; VInt 0]). do 2 eexists. split; [vm_compute; reflexivity|]. split; [|refute_tac 30%nat].
  intros r F. ints F "n". ints F "z". lists F "agg.result". lists F "f_rv".
  cbn -[Z.max Z.ltb Z.leb Z.eqb Z.add Z.of_nat]. rewrite ?E, ?E0, ?E1, ?E2. cbn -[Z.max Z.ltb Z.leb Z.eqb Z.add Z.of_nat].
  rewrite app_length. cbn [length]. do 2 f_equal. rewrite ?andb_true_r.
  destruct (Z.of_nat (length l) <? z)%Z eqn:A, (Z.of_nat (length l) <=? Z.max z 0)%Z eqn:B; cbn -[Z.max Z.leb Z.eqb Z.of_nat];
    rewrite ?andb_true_iff, ?Z.leb_le, ?Z.eqb_eq; repeat split; lia.
Qed.
Print Assumptions C32_refuted_after_loop.
