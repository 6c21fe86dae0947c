(** C27-C30: the Python frontend. *)

From Coq Require Import String List ZArith Bool Lia.
From Verif Require Import Ast Semantics Dict IrProofs3 UtilModel ObjModel PyModel PySem PyProofs PyProofs2 PyProofs3 PyProofs4 PyProofs5 OptProofs2.
Import ListNotations.
Local Open Scope Z_scope.
Local Open Scope string_scope.
Local Open Scope list_scope.

(** An interpretation of the library functions, with a chosen meaning [P] for the
    invariants and the summary. *)
Definition lib_interp (P : string -> list val -> bool) : interp := {|
  i_div := fun x y => Some (x / y);
  i_mod := fun x y => Some (x mod y);
  i_call := fun f vs =>
    if f =? "list_empty" then match vs with [] => Some (VList []) | _ => None end
    else if f =? "list_length" then match vs with [VList l] => Some (VInt (Z.of_nat (length l))) | _ => None end
    else if f =? "list_append" then match vs with [VList l; v] => Some (VList (l ++ [v])) | _ => None end
    else if f =? "list_get" then
      match vs with
      | [VList l; VInt i] => if (i <? 0)%Z then Some (VInt 0) else
                               match nth_error l (Z.to_nat i) with Some v => Some v | None => Some (VInt 0) end
      | _ => None
      end
    else if f =? "tupleGet" then match vs with [VTuple l; VInt i] => nth_error l (Z.to_nat i) | _ => None end
    else Some (VBool (P f vs)) |}.

Lemma lib_interp_ok P : library (lib_interp P).
Proof.
  constructor; try reflexivity; cbn; intros.
  - apply Z.ltb_ge in H. rewrite H, H0. reflexivity.
  - destruct (i <? 0)%Z; [eauto|]. destruct (nth_error l (Z.to_nat i)) as [v|] eqn:E; [|eauto].
    apply nth_error_In in E. rewrite forallb_forall in H. apply H in E. destruct v; try discriminate. eauto.
  - exact H0.
  - eauto.
Qed.

(** no uninterpreted functions *)
Definition noU : string -> list val -> option val := fun _ _ => None.
Definition int_of (v : val) : Z := match v with VInt z => z | _ => 0 end.

(** ** C27 and C28: verified lifting is sound

    The full property: whenever the verification condition generated for a function
    is true for all values of its variables (for some meaning of the invariants and
    of the summary), the summary holds of what the function returns, for all inputs
    on which it returns.  This is false (the [_refuted] theorems below).  It is proved
    for the programs of [PySem.supported]:
    - expressions over integers, lists of integers and tuples, without chained
      comparisons, [!=] and negative tuple indices; list indexing and [//] are only
      claimed for non-negative indices and positive divisors ([strict = true] in
      [returns]);
    - inside an [if] no list is assigned or appended to; list variables are not copied;
    - a loop is at top level, contains no return and no loop, and writes neither
      parameters nor variables written by an earlier loop;
    - at most one [return] below an [if], and none after it or a loop.
    [G] gives the types of the variables. *)
Theorem C28_partial : forall I U G uninterp types f vc vs v,
  library I ->
  (forall g ws, smem g uninterp = true -> i_call I g ws = U g ws /\ exists z, U g ws = Some (VInt z)) ->
  NoDup (map fst (f_formals f)) ->
  supported G uninterp types f = true ->
  func_vc uninterp types f = Ok vc ->
  holds I G vc ->
  Forall2 (fun p w => exists t, to_object_type (snd p) = Ok t /\ of_type t w = true) (f_formals f) vs ->
  returns U true f vs v ->
  i_call I (f_name f ++ "_ps") (vs ++ [v]) = Some (VBool true).
Proof.
  intros I U G uninterp types f vc vs v LIB UNI ND SP FV HO IN R.
  exact (func_sound I U G uninterp types f LIB UNI vc vs v ND SP FV HO IN R).
Qed.
Print Assumptions C28_partial.

Fixpoint loop_free (s : stmt) : bool :=
  match s with
  | SWhile _ _ _ => false
  | SIf _ b e => forallb loop_free b && forallb loop_free e
  | _ => true
  end.

(** the same for functions without loops *)
Theorem C27_partial : forall I U G uninterp types f vc vs v,
  library I ->
  (forall g ws, smem g uninterp = true -> i_call I g ws = U g ws /\ exists z, U g ws = Some (VInt z)) ->
  NoDup (map fst (f_formals f)) ->
  forallb loop_free (f_body f) = true ->
  supported G uninterp types f = true ->
  func_vc uninterp types f = Ok vc ->
  holds I G vc ->
  Forall2 (fun p w => exists t, to_object_type (snd p) = Ok t /\ of_type t w = true) (f_formals f) vs ->
  returns U true f vs v ->
  i_call I (f_name f ++ "_ps") (vs ++ [v]) = Some (VBool true).
Proof. intros. eapply C28_partial; eauto. Qed.
Print Assumptions C27_partial.

(** *** A loop-free function: [def biggest(x, y): if x > y: r = x else: r = y; return r] *)
Definition biggest : funcdef := {| f_name := "biggest"; f_formals := [("x", MtInt); ("y", MtInt)]; f_ret := MtInt;
  f_body := [SIf (ECmp [">"] [EName "x"; EName "y"]) [SAssign ["r"] (EName "x")] [SAssign ["r"] (EName "y")];
             SReturn (EName "r")] |}.
Definition biggest_types : dict mtype := [("x", MtInt); ("y", MtInt); ("r", MtInt)].
Definition biggest_G : dict ty := [("x", TInt); ("y", TInt); ("r", TInt)].
Definition biggest_ps (f : string) (vs : list val) : bool :=
  match vs with [VInt x; VInt y; VInt r] => (r =? Z.max x y)%Z | _ => false end.

Ltac ints H n := let z := fresh "z" in let E := fresh "E" in
  destruct (H n TInt eq_refl) as ([z| | | |] & E & ?); try discriminate.

Lemma biggest_vc : exists vc, func_vc [] biggest_types biggest = Ok vc /\ holds (lib_interp biggest_ps) biggest_G vc.
Proof.
  eexists. split; [vm_compute; reflexivity|]. intros r F. ints F "x"; ints F "y".
  cbn -[Z.max Z.ltb Z.eqb]. rewrite E, E0. cbn -[Z.max Z.ltb Z.eqb]. do 2 f_equal.
  destruct (z0 <? z)%Z eqn:C; cbn -[Z.max Z.eqb]; rewrite ?E, ?E0; cbn -[Z.max Z.eqb]; apply f_equal, f_equal || idtac; lia.
Qed.

Lemma biggest_ok : NoDup (map fst (f_formals biggest)) /\ forallb loop_free (f_body biggest) = true /\
  supported biggest_G [] biggest_types biggest = true.
Proof.
  split; [|split; reflexivity]. repeat constructor; cbn; intuition discriminate.
Qed.

(** so the theorem gives: for all inputs the function returns the maximum *)
Example C27_example : forall x y v, returns noU true biggest [VInt x; VInt y] v -> v = VInt (Z.max x y).
Proof.
  intros x y v R. destruct biggest_vc as (vc & FV & HO). destruct biggest_ok as (ND & LF & SP).
  assert (K : i_call (lib_interp biggest_ps) "biggest_ps" ([VInt x; VInt y] ++ [v]) = Some (VBool true)).
  { refine (C27_partial _ noU _ [] _ biggest vc _ _ (lib_interp_ok _) _ ND LF SP FV HO _ R).
    - intros g ws; discriminate.
    - repeat constructor; exists TInt; auto. }
  cbn -[Z.max] in K. injection K as K. destruct v; try discriminate. f_equal. now apply Z.eqb_eq.
Qed.
Example C27_example_runs : returns noU true biggest [VInt 3; VInt 8] (VInt 8).
Proof. split; [reflexivity|]. exists 5%nat. reflexivity. Qed.

(** *** A loop: [def twice(n): i = 0; s = 0; while i < n: s = s + 2; i = i + 1; return s] *)
Definition twice : funcdef := {| f_name := "twice"; f_formals := [("n", MtInt)]; f_ret := MtInt;
  f_body := [SAssign ["i"] (EInt 0); SAssign ["s"] (EInt 0);
             SWhile 0 (ECmp ["<"] [EName "i"; EName "n"])
               [SAssign ["s"] (EOp "+" (EName "s") (EInt 2)); SAssign ["i"] (EOp "+" (EName "i") (EInt 1))];
             SReturn (EName "s")] |}.
Definition twice_types : dict mtype := [("n", MtInt); ("i", MtInt); ("s", MtInt)].
Definition twice_G : dict ty := [("n", TInt); ("i", TInt); ("s", TInt)].
(** the summary: the result is twice [n], or zero; the invariant: [s = 2 i] and
    [i <= max n 0] *)
Definition twice_P (f : string) (vs : list val) : bool :=
  match vs with
  | [VInt n; VInt r] => (r =? 2 * Z.max n 0)%Z
  | [VInt n; VInt i; VInt s] => (s =? 2 * i)%Z && (i <=? Z.max n 0)%Z && (0 <=? i)%Z
  | _ => false
  end.

Lemma twice_vc : exists vc, func_vc [] twice_types twice = Ok vc /\ holds (lib_interp twice_P) twice_G vc.
Proof.
  eexists. split; [vm_compute; reflexivity|]. intros r F. ints F "n"; ints F "i"; ints F "s".
  cbn -[Z.max Z.ltb Z.leb Z.eqb Z.mul Z.add]. rewrite E, E0, E1. cbn -[Z.max Z.ltb Z.leb Z.eqb Z.mul Z.add].
  do 2 f_equal.
  destruct (z0 <? z)%Z eqn:C1, (z1 =? 2 * z0)%Z eqn:C2, (z0 <=? Z.max z 0)%Z eqn:C3, (0 <=? z0)%Z eqn:C4; cbn -[Z.max Z.ltb Z.leb Z.eqb Z.mul Z.add]; lia.
Qed.
Lemma twice_ok : NoDup (map fst (f_formals twice)) /\ supported twice_G [] twice_types twice = true.
Proof. split; [repeat constructor; cbn; intuition discriminate|reflexivity]. Qed.

Example C28_example : forall n v, returns noU true twice [VInt n] v -> v = VInt (2 * Z.max n 0).
Proof.
  intros n v R. destruct twice_vc as (vc & FV & HO). destruct twice_ok as (ND & SP).
  assert (K : i_call (lib_interp twice_P) "twice_ps" ([VInt n] ++ [v]) = Some (VBool true)).
  { refine (C28_partial _ noU _ [] _ twice vc _ _ (lib_interp_ok _) _ ND SP FV HO _ R).
    - intros g ws; discriminate.
    - repeat constructor; exists TInt; auto. }
  cbn -[Z.max Z.mul] in K. injection K as K. destruct v; try discriminate. f_equal. now apply Z.eqb_eq.
Qed.
Example C28_example_runs : returns noU true twice [VInt 3] (VInt 6).
Proof. split; [reflexivity|]. exists 20%nat. reflexivity. Qed.

(** *** Where it is false

    A function is lifted wrongly: its verification condition holds, for the given
    meaning of invariants and summary and all values of its variables, but the
    summary is false of what the function returns on the inputs [vs]. *)
Definition unsound (types : dict mtype) (f : funcdef) : Prop :=
  exists P G vc vs v,
    func_vc [] types f = Ok vc /\ holds (lib_interp P) G vc /\
    (forall x t, dget types x = Some t -> exists t', to_object_type t = Ok t' /\ dget G x = Some t') /\
    Forall2 (fun p w => exists t, to_object_type (snd p) = Ok t /\ of_type t w = true) (f_formals f) vs /\
    returns noU true f vs v /\
    i_call (lib_interp P) (f_name f ++ "_ps") (vs ++ [v]) = Some (VBool false).

Ltac types_tac := intros x t; cbn; repeat (match goal with |- context [ (?a =? ?b)%string ] => destruct (a =? b)%string end);
  let K := fresh in intro K; try discriminate; injection K as <-; cbn; eauto.
Ltac in_tac := repeat constructor; eexists; split; reflexivity.
Ltac ret_tac n := split; [reflexivity|exists n; vm_compute; reflexivity].

(** Two returns: only the assertion of the first one is kept (python.py:629-631,
    [e not in asserts] is never true once there is an assertion).
    [def f(x): if x > 0: return 1 else: return 2] is said to return 1. *)
Definition two_returns : funcdef := {| f_name := "f"; f_formals := [("x", MtInt)]; f_ret := MtInt;
  f_body := [SIf (ECmp [">"] [EName "x"; EInt 0]) [SReturn (EInt 1)] [SReturn (EInt 2)]] |}.
Theorem C27_refuted : unsound [("x", MtInt)] two_returns /\ forallb loop_free (f_body two_returns) = true.
Proof.
  split; [|reflexivity].
  exists (fun _ vs => match vs with [_; VInt r] => (r =? 1)%Z | _ => false end), [("x", TInt)].
  eexists. exists [VInt 0], (VInt 2). split; [vm_compute; reflexivity|].
  split; [|split; [types_tac|split; [in_tac|split; [ret_tac 5%nat|reflexivity]]]].
  intros r F. ints F "x". cbn -[Z.ltb]. rewrite E. cbn -[Z.ltb]. destruct (0 <? z)%Z; reflexivity.
Qed.
Print Assumptions C27_refuted.

(** A list appended to in one branch: the list of the then branch is used whichever
    branch is taken.
    [def f(c): l = []; if c > 0: l.append(1) …] needs a variable for the list, so
    the list is a parameter here:
    [def f(c, l): if c > 0: l.append(1); return len(l)]. *)
Definition append_in_if : funcdef := {| f_name := "f"; f_formals := [("c", MtInt); ("l", MtList MtInt)]; f_ret := MtInt;
  f_body := [SIf (ECmp [">"] [EName "c"; EInt 0]) [SExpr (ECallMethod (EName "l") "append" [EInt 1])] [];
             SReturn (ECallFn "len" [EName "l"] MtInt)] |}.
Theorem C29_refuted : unsound [("c", MtInt); ("l", MtList MtInt)] append_in_if.
Proof.
  exists (fun _ vs => match vs with [_; VList l; VInt r] => (r =? Z.of_nat (length l) + 1)%Z | _ => false end).
  exists [("c", TInt); ("l", TList TInt)].
  eexists. exists [VInt 0; VList []], (VInt 0). split; [vm_compute; reflexivity|].
  split; [|split; [types_tac|split; [in_tac|split; [ret_tac 5%nat|reflexivity]]]].
  intros r F. ints F "c". destruct (F "l" (TList TInt) eq_refl) as ([| |l| |] & E0 & ?); try discriminate.
  cbn -[Z.ltb Z.of_nat]. rewrite E, E0. cbn -[Z.ltb Z.of_nat]. rewrite app_length. cbn -[Z.of_nat].
  do 2 f_equal. apply Z.eqb_eq. lia.
Qed.
Print Assumptions C29_refuted.

(** A parameter is written in the loop: the initial value is lost because the havoc
    reuses the parameter's variable (python.py:514-518).
    [def f(i): while i > 0: i = i - 1; return i] is said to return its argument. *)
Definition param_loop : funcdef := {| f_name := "f"; f_formals := [("i", MtInt)]; f_ret := MtInt;
  f_body := [SWhile 0 (ECmp [">"] [EName "i"; EInt 0]) [SAssign ["i"] (EOp "-" (EName "i") (EInt 1))];
             SReturn (EName "i")] |}.
Definition is_inv (f : string) : bool := prefix "f_inv" f.
Theorem C28_refuted_parameter : unsound [("i", MtInt)] param_loop.
Proof.
  exists (fun f vs => is_inv f || match vs with [VInt i; VInt r] => (r =? i)%Z | _ => false end), [("i", TInt)].
  eexists. exists [VInt 2], (VInt 0). split; [vm_compute; reflexivity|].
  split; [|split; [types_tac|split; [in_tac|split; [ret_tac 20%nat|reflexivity]]]].
  intros r F. ints F "i". cbn -[Z.ltb Z.eqb]. rewrite E. cbn -[Z.ltb Z.eqb].
  rewrite Z.eqb_refl. destruct (0 <? z)%Z; reflexivity.
Qed.
Print Assumptions C28_refuted_parameter.

(** Two loops one after the other that write the same variable: what is known after
    the first loop is said about the variable that the second loop changes.
    [def f(n): i = 0; while i > 0: i = 0; while i < n: i = i + 1; return i]
    is said to return 0. *)
Definition two_loops : funcdef := {| f_name := "f"; f_formals := [("n", MtInt)]; f_ret := MtInt;
  f_body := [SAssign ["i"] (EInt 0);
             SWhile 0 (ECmp [">"] [EName "i"; EInt 0]) [SAssign ["i"] (EInt 0)];
             SWhile 1 (ECmp ["<"] [EName "i"; EName "n"]) [SAssign ["i"] (EOp "+" (EName "i") (EInt 1))];
             SReturn (EName "i")] |}.
Theorem C28_refuted_two_loops : unsound [("n", MtInt); ("i", MtInt)] two_loops.
Proof.
  exists (fun f vs => if (f =? "f_inv0")%string then match vs with [_; VInt i] => (i =? 0)%Z | _ => false end
                      else if is_inv f then true
                      else match vs with [VInt n; VInt r] => (r =? 0)%Z | _ => false end).
  exists [("n", TInt); ("i", TInt)].
  eexists. exists [VInt 3], (VInt 3). split; [vm_compute; reflexivity|].
  split; [|split; [types_tac|split; [in_tac|split; [ret_tac 30%nat|reflexivity]]]].
  intros r F. ints F "n". ints F "i". cbn -[Z.ltb Z.eqb]. rewrite E, E0. cbn -[Z.ltb Z.eqb].
  destruct (0 <? z0)%Z eqn:A1, (z0 =? 0)%Z eqn:A2, (z0 <? z)%Z; cbn; try reflexivity; lia.
Qed.
Print Assumptions C28_refuted_two_loops.

(** A loop inside a loop: the assertions of the inner loop go into the state of the
    body, which is thrown away (python.py:520-551), so nothing is ever shown about
    the inner invariant.
    [def f(n): i = 0; j = 0; while i < n: i = i + 1; while j < 1: j = 1; return j]
    is said to return 0. *)
Definition nested_loops : funcdef := {| f_name := "f"; f_formals := [("n", MtInt)]; f_ret := MtInt;
  f_body := [SAssign ["i"] (EInt 0); SAssign ["j"] (EInt 0);
             SWhile 0 (ECmp ["<"] [EName "i"; EName "n"])
               [SAssign ["i"] (EOp "+" (EName "i") (EInt 1));
                SWhile 1 (ECmp ["<"] [EName "j"; EInt 1]) [SAssign ["j"] (EInt 1)]];
             SReturn (EName "j")] |}.
Theorem C28_refuted_nested : unsound [("n", MtInt); ("i", MtInt); ("j", MtInt)] nested_loops.
Proof.
  exists (fun f vs => match vs with [VInt n; VInt i; VInt j] => (j =? 0)%Z | [VInt n; VInt r] => (r =? 0)%Z | _ => false end).
  exists [("n", TInt); ("i", TInt); ("j", TInt)].
  eexists. exists [VInt 3], (VInt 1). split; [vm_compute; reflexivity|].
  split; [|split; [types_tac|split; [in_tac|split; [ret_tac 30%nat|reflexivity]]]].
  intros r F. ints F "n". ints F "i". ints F "j". cbn -[Z.ltb Z.eqb Z.add]. rewrite E, E0, E1. cbn -[Z.ltb Z.eqb Z.add].
  destruct (z0 <? z)%Z, (z1 =? 0)%Z; reflexivity.
Qed.
Print Assumptions C28_refuted_nested.

(** A [return] in a loop is forgotten in the same way:
    [def f(n): i = 0; while i < n: i = i + 1; return 5 (in the loop); return 0] is
    said to return 0. *)
Definition return_in_loop : funcdef := {| f_name := "f"; f_formals := [("n", MtInt)]; f_ret := MtInt;
  f_body := [SAssign ["i"] (EInt 0);
             SWhile 0 (ECmp ["<"] [EName "i"; EName "n"])
               [SAssign ["i"] (EOp "+" (EName "i") (EInt 1)); SReturn (EInt 5)];
             SReturn (EInt 0)] |}.
Theorem C28_refuted_return : unsound [("n", MtInt); ("i", MtInt)] return_in_loop.
Proof.
  exists (fun f vs => is_inv f || match vs with [VInt n; VInt r] => (r =? 0)%Z | _ => false end).
  exists [("n", TInt); ("i", TInt)].
  eexists. exists [VInt 3], (VInt 5). split; [vm_compute; reflexivity|].
  split; [|split; [types_tac|split; [in_tac|split; [ret_tac 30%nat|reflexivity]]]].
  intros r F. ints F "n". ints F "i". cbn -[Z.ltb Z.eqb]. rewrite E, E0. cbn -[Z.ltb Z.eqb].
  destruct (z0 <? z)%Z; reflexivity.
Qed.
Print Assumptions C28_refuted_return.

(** *** Functions analysed one after the other

    Python evaluates the default values [list()] of [State.__init__]'s parameters
    once (python.py:107-113), so the [State()] of every call shares one list of
    preconditions and one of assertions.  What an earlier analysed function assumed
    after its loop is assumed in the next one, even by a new driver:
    [def f(): i = 0; while i >= 0: i = i + 1; return i] (it never returns), and then
    [def g(): return 7], which is said to return 8. *)
Definition endless : funcdef := {| f_name := "f"; f_formals := []; f_ret := MtInt;
  f_body := [SAssign ["i"] (EInt 0);
             SWhile 0 (ECmp [">="] [EName "i"; EInt 0]) [SAssign ["i"] (EOp "+" (EName "i") (EInt 1))];
             SReturn (EName "i")] |}.
Definition seven : funcdef := {| f_name := "g"; f_formals := []; f_ret := MtInt; f_body := [SReturn (EInt 7)] |}.
(** [P] interprets the predicates of both functions *)
Definition carry_P (f : string) (vs : list val) : bool :=
  if (f =? "f_inv0")%string then match vs with [VInt i] => (0 <=? i)%Z | _ => false end
  else match vs with [VInt r] => (r =? 8)%Z | _ => false end.
Theorem C28_refuted_shared_state : exists r1 d1 shared r2 d2 s2 vc1 vc2,
  call_func [] [("i", MtInt)] endless [] new_driver new_state = Ok (r1, d1, shared) /\
  call_func [] [] seven [] new_driver shared = Ok (r2, d2, s2) /\
  driver_vc d1 = Ok vc1 /\ holds (lib_interp carry_P) [("i", TInt)] vc1 /\
  driver_vc d2 = Ok vc2 /\ holds (lib_interp carry_P) [("i", TInt)] vc2 /\
  returns noU true seven [] (VInt 7) /\
  i_call (lib_interp carry_P) "g_ps" [VInt 7] = Some (VBool false) /\
  (* on its own, [g] is analysed correctly *)
  func_vc [] [] seven <> Ok vc2.
Proof.
  do 8 eexists. split; [vm_compute; reflexivity|]. split; [vm_compute; reflexivity|].
  split; [vm_compute; reflexivity|]. split.
  { intros r F. ints F "i". cbn -[Z.ltb Z.leb Z.add Z.eqb]. rewrite E. cbn -[Z.ltb Z.leb Z.add Z.eqb].
    do 2 f_equal. destruct (0 <=? z)%Z eqn:A; cbn -[Z.ltb Z.leb Z.add Z.eqb]; lia. }
  split; [vm_compute; reflexivity|]. split.
  { intros r F. ints F "i". cbn -[Z.ltb Z.leb Z.add Z.eqb]. rewrite E. cbn -[Z.ltb Z.leb Z.add Z.eqb].
    do 2 f_equal. destruct (0 <=? z)%Z eqn:A; cbn -[Z.ltb Z.leb Z.add Z.eqb]; lia. }
  split; [ret_tac 5%nat|]. split; [reflexivity|]. vm_compute. discriminate.
Qed.
Print Assumptions C28_refuted_shared_state.

(** ** C29: the state after an if statement

    Full property: every variable has the value of the branch that is taken.  Proved
    for all if statements and all programs: integer and Boolean variables do; tuple
    variables do if the literals in the two tuples do not mix up [1] and [True]
    (C02); list, matrix and set variables have the value of the then branch,
    whichever branch is taken, which is what [C29_refuted] above exploits.  If one
    branch returned, the variables are those of the other one. *)
Theorem C29_partial : forall fn fargs un types c body els g s g' s',
  NoDup (dkeys (vars s)) ->
  vstmt fn fargs un types (SIf c body els) (g, s) = Ok (g', s') ->
  exists co s1 nc gc sc sa,
    vexpr un c s = Ok (co, s1) /\
    (forall I r b, eval I r (o_src co) = Some (VBool b) -> eval I r nc = Some (VBool (negb b))) /\
    vblock fn fargs un types body (g, add_precond s1 (o_src co)) = Ok (gc, sc) /\
    vblock fn fargs un types els (gc, add_precond s1 nc) = Ok (g', sa) /\
    (has_returned sc = true -> has_returned sa = false -> vars s' = vars sa) /\
    (has_returned sc = false -> has_returned sa = true -> vars s' = vars sc) /\
    (has_returned sc = false -> has_returned sa = false ->
     forall x oc oa, dget (vars sc) x = Some oc -> dget (vars sa) x = Some oa ->
     exists o, dget (vars s') x = Some o /\
       match o_ty oc with
       | TInt | TBool => forall I r b, eval I r (o_src co) = Some (VBool b) ->
           eval I r (o_src o) = eval I r (o_src (if b then oc else oa))
       | TTuple _ => IrProofs3.lits_agree (o_src oc) (o_src oa) ->
           forall I r b, eval I r (o_src co) = Some (VBool b) ->
           eval I r (o_src o) = eval I r (o_src (if b then oc else oa))
       | TList _ | TMatrix _ | TTensor3D _ | TSet _ => o = oc
       | TFn _ => True
       end).
Proof.
  intros fn fargs un types c body els g s g' s' N V.
  destruct (if_parts _ _ _ _ _ _ _ _ _ _ V) as (co & s1 & nc & gc & sc & ga & sa & s2 & V1 & NN & VB & VE & M & E).
  injection E as <- <-. exists co, s1, nc, gc, sc, sa. split; [exact V1|].
  assert (N1 : nd s1) by (eapply (vexpr_nd un c s (co, s1)); eauto).
  assert (NC : nd sc) by (apply (vblock_nd _ _ _ _ _ _ _ VB); exact N1).
  split; [|split; [exact VB|split; [exact VE|split; [|split]]]].
  - intros I r b Ev. apply not_ok in NN. subst nc. cbn. rewrite Ev. reflexivity.
  - intros R1 R2. unfold merge_if in M. rewrite R1, R2 in M. injection M as <-. reflexivity.
  - intros R1 R2. unfold merge_if in M. rewrite R1, R2 in M. injection M as <-. reflexivity.
  - intros R1 R2 x oc oa D1 D2. destruct (merge_if_vars co s1 sc sa s' NC N1 M R1 R2 x oc oa D1 D2) as (o & D & K).
    exists o. split; [exact D|]. destruct (o_ty oc); auto.
    + intros I r b Ev. rewrite (K I r b Ev). now destruct b.
    + intros I r b Ev. rewrite (K I r b Ev). now destruct b.
    + intros L I r b Ev. rewrite (K L I r b Ev). now destruct b.
Qed.
Print Assumptions C29_partial.

(** An if statement whose branches change an integer and append to a list: the integer is
    right for both branches, the list is not. *)
Definition demo_if : stmt :=
  SIf (ECmp [">"] [EName "c"; EInt 0])
    [SAssign ["x"] (EInt 1); SExpr (ECallMethod (EName "l") "append" [EInt 1])] [SAssign ["x"] (EInt 2)].
Definition demo_state : state := {| precond := []; asserts := []; has_returned := false;
  vars := [("c", var_obj TInt "c"); ("x", int_lit 0); ("l", var_obj (TList TInt) "l")] |}.
Definition demo_env (c : Z) : env :=
  fun x => if (x =? "c")%string then Some (VInt c) else if (x =? "l")%string then Some (VList []) else None.
Definition value_of (I : interp) (r : env) (s : state) (x : string) : option val :=
  match dget (vars s) x with Some o => eval I r (o_src o) | None => None end.
Example C29_example : exists g s', vstmt "f" [] [] [] demo_if (d_glob new_driver, demo_state) = Ok (g, s') /\
  let I := lib_interp (fun _ _ => true) in
  value_of I (demo_env 5) s' "x" = Some (VInt 1) /\ value_of I (demo_env 0) s' "x" = Some (VInt 2) /\
  value_of I (demo_env 5) s' "l" = Some (VList [VInt 1]) /\
  (* Python: the list stays empty *)
  value_of I (demo_env 0) s' "l" = Some (VList [VInt 1]).
Proof. do 2 eexists. split; [vm_compute; reflexivity|]. repeat split. Qed.

(** ** C30: comparisons

    Full property: the object made for a comparison, chained or not, has the value
    that Python gives it.  Proved: a single comparison of integers with one of
    [< <= > >= ==] has; a chain has the value of its last comparison, so it is right
    when all earlier ones hold, and it is never false where Python's is true. *)
Theorem C30_partial : forall un op e1 e2 s o1 s1 o2 s2 o s' I r x y,
  vexpr un e1 s = Ok (o1, s1) -> vexpr un e2 s1 = Ok (o2, s2) ->
  vexpr un (ECmp [op] [e1; e2]) s = Ok (o, s') ->
  eval I r (o_src o1) = Some (VInt x) -> eval I r (o_src o2) = Some (VInt y) ->
  eval I r (o_src o) = pyeval noU true (fun _ => None) (ECmp [op] [EInt x; EInt y]) /\
  eval I r (o_src o) <> None.
Proof.
  intros un op e1 e2 s o1 s1 o2 s2 o s' I r x y V1 V2 V E1 E2.
  cbn [vexpr mapS] in V. rewrite V1 in V. cbn [bindR fst snd] in V. rewrite V2 in V. cbn [bindR fst snd] in V.
  ok V o' C. injection V as -> <-.
  destruct (comparison_value I r [op] o1 [o2] o x [y] C E1 ltac:(repeat constructor; auto)) as (t & L & ->).
  change [EInt x; EInt y] with (map EInt (x :: [y])). rewrite all_hold_spec. cbn -[py_cmp] in *. rewrite L.
  split; [now destruct t|discriminate].
Qed.
Print Assumptions C30_partial.

Theorem C30_partial_chain : forall ops l operands o I r x ys,
  comparison ops (l :: operands) = Ok o ->
  eval I r (o_src l) = Some (VInt x) -> Forall2 (fun p y => eval I r (o_src p) = Some (VInt y)) operands ys ->
  length ops = length ys ->
  exists t, eval I r (o_src o) = Some (VBool t) /\
    (* Python says true: so does the object *)
    (pyeval noU true (fun _ => None) (ECmp ops (map EInt (x :: ys))) = Some (VBool true) -> t = true) /\
    (* all comparisons but the last hold: the object has Python's value *)
    (forall ops' op ys' y, ops = ops' ++ [op] -> ys = ys' ++ [y] ->
       pyeval noU true (fun _ => None) (ECmp ops' (map EInt (x :: ys'))) = Some (VBool true) ->
       pyeval noU true (fun _ => None) (ECmp ops (map EInt (x :: ys))) = Some (VBool t)).
Proof.
  intros ops l operands o I r x ys C E F LE.
  destruct (comparison_value I r ops l operands o x ys C E F) as (t & L & Ev).
  exists t. split; [exact Ev|]. split.
  - rewrite all_hold_spec. destruct (all_hold x ops ys) as [b|] eqn:A; [|discriminate]. cbn. intros K.
    injection K as ->. eapply all_hold_last; eauto.
  - intros ops' op ys' y -> ->. rewrite !all_hold_spec. destruct (all_hold x ops' ys') as [b|] eqn:A; [|discriminate].
    cbn. intros K. injection K as ->. rewrite (all_hold_prefix ops' x ys' op y t A L). reflexivity.
Qed.
Print Assumptions C30_partial_chain.

(** [5 < 3 < 4] is true *)
Theorem C30_refuted : exists o s, vexpr [] (ECmp ["<"; "<"] [EInt 5; EInt 3; EInt 4]) new_state = Ok (o, s) /\
  (forall I r, eval I r (o_src o) = Some (VBool true)) /\
  pyeval noU true (fun _ => None) (ECmp ["<"; "<"] [EInt 5; EInt 3; EInt 4]) = Some (VBool false).
Proof. do 2 eexists. split; [vm_compute; reflexivity|]. split; [intros; reflexivity|reflexivity]. Qed.
Print Assumptions C30_refuted.

(** and [!=] is not supported *)
Theorem C30_not_equal : forall un e1 e2 s o1 s1 o2 s2,
  vexpr un e1 s = Ok (o1, s1) -> vexpr un e2 s1 = Ok (o2, s2) -> o_ty o1 = TInt -> o_ty o2 = TInt ->
  vexpr un (ECmp ["!="] [e1; e2]) s = Err ExNYI.
Proof.
  intros un e1 e2 s o1 s1 o2 s2 V1 V2 T1 T2. cbn [vexpr mapS]. rewrite V1. cbn [bindR fst snd]. rewrite V2.
  cbn [bindR fst snd comparison]. unfold process_comparison. rewrite T1, T2. reflexivity.
Qed.
Print Assumptions C30_not_equal.

(** a chain where the theorem applies: [x < 3 < y] with [x < 3] *)
Example C30_example : exists o, comparison ["<"; "<"] [var_obj TInt "x"; int_lit 3; var_obj TInt "y"] = Ok o /\
  forall y, eval (lib_interp (fun _ _ => true)) (fun v => if (v =? "x")%string then Some (VInt 1) else Some (VInt y)) (o_src o)
            = Some (VBool (3 <? y)%Z).
Proof. eexists. split; [vm_compute; reflexivity|]. intros y. reflexivity. Qed.

(** ** C27 and C28: sets

    The soundness theorems above leave sets out.  What [s.add(e)] and [s.remove(e)]
    do to the state is right on its own: the variable then has the value of the
    Python set.  [mem a v]: [a] is an element of the set value [v]. *)
Record set_library (I : interp) (mem : val -> val -> Prop) : Prop := {
  sl_one : forall a, exists v, i_call I "set-singleton" [a] = Some v /\ forall b, mem b v <-> b = a;
  sl_union : forall v w, exists u, i_call I "set-union" [v; w] = Some u /\ forall b, mem b u <-> mem b v \/ mem b w;
  sl_minus : forall v w, exists u, i_call I "set-minus" [v; w] = Some u /\ forall b, mem b u <-> mem b v /\ ~ mem b w }.
Theorem C27_sets_partial : forall un x m e s s1 c c' o s' I mem r v a,
  m = "add" \/ m = "remove" ->
  dget (vars s) x = Some c -> var_name c = Ok x ->
  vexpr un e s = Ok (c', s1) ->
  vexpr un (ECallMethod (EName x) m [e]) s = Ok (o, s') ->
  set_library I mem -> eval I r (o_src c) = Some v -> eval I r (o_src c') = Some a ->
  exists u, eval I r (o_src o) = Some u /\
    (forall b, mem b u <-> if m =? "add" then mem b v \/ b = a else mem b v /\ b <> a) /\
    dget (vars s') x = Some o /\ (forall y, y <> x -> dget (vars s') y = dget (vars s1) y).
Proof.
  intros un x m e s s1 c c' o s' I mem r v a M R N V C L EV EA.
  assert (MN : m =? "append" = false) by (destruct M; subst; reflexivity).
  assert (MM : (m =? "add") || (m =? "remove") = true) by (destruct M; subst; reflexivity).
  cbn [vexpr mapS] in C. rewrite MN, MM in C. unfold read in C. rewrite R in C. cbn [bindR fst snd] in C.
  destruct (o_ty c) eqn:T; try discriminate C. rewrite V in C. cbn [bindR fst snd one] in C. rewrite N in C.
  destruct (sl_one I mem L a) as (w & S1 & S2).
  destruct M; subst m; cbn in C; injection C as <- <-; cbn.
  - destruct (sl_union I mem L v w) as (u & U1 & U2). exists u. rewrite EV, EA, S1, U1. split; [reflexivity|].
    split; [intros b; now rewrite U2, S2|]. split; [now rewrite dget_dset, String.eqb_refl|].
    intros y NE. rewrite dget_dset. now rewrite (proj2 (String.eqb_neq y x) NE).
  - destruct (sl_minus I mem L v w) as (u & U1 & U2). exists u. rewrite EV, EA, S1, U1. split; [reflexivity|].
    split; [intros b; now rewrite U2, S2|]. split; [now rewrite dget_dset, String.eqb_refl|].
    intros y NE. rewrite dget_dset. now rewrite (proj2 (String.eqb_neq y x) NE).
Qed.
Print Assumptions C27_sets_partial.

(** an interpretation with sets as lists, and [s.add(4)] in a state where [s] is a
    set; a second [s.add] raises, because [s] is no variable any more (var_name,
    ir.py:794-797) *)
Definition elems (v : val) : list val := match v with VList l => l | _ => [] end.
Definition set_interp : interp := {|
  i_div := fun x y => Some (x / y); i_mod := fun x y => Some (x mod y);
  i_call := fun f vs =>
    match vs with
    | [a] => if f =? "set-singleton" then Some (VList [a]) else None
    | [v; w] => if f =? "set-union" then Some (VList (elems v ++ elems w))
                else if f =? "set-minus" then Some (VList (filter (fun b => negb (existsb (val_eqb b) (elems w))) (elems v))) else None
    | _ => None
    end |}.
Example C27_sets_library : set_library set_interp (fun a v => In a (elems v)).
Proof.
  constructor.
  - intros a. eexists. split; [reflexivity|]. cbn. intuition.
  - intros v w. eexists. split; [reflexivity|]. cbn. intros. apply in_app_iff.
  - intros v w. eexists. split; [reflexivity|]. cbn. intros b. rewrite filter_In. apply and_iff_compat_l.
    rewrite negb_true_iff, <- Bool.not_true_iff_false, existsb_exists. split; intros N M; apply N.
    + exists b. split; [exact M|apply val_eqb_refl].
    + destruct M as (y & A & E). apply val_eqb_eq in E. now subst.
Qed.
Example C27_sets_nontrivial : let s := write new_state "s" (var_obj (TSet TInt) "s") in
  exists o s' u, vexpr [] (ECallMethod (EName "s") "remove" [EInt 4]) s = Ok (o, s') /\
    eval set_interp (fun x => if x =? "s" then Some (VList [VInt 3; VInt 4]) else None) (o_src o) = Some u /\ u = VList [VInt 3] /\
    vexpr [] (ECallMethod (EName "s") "add" [EInt 5]) s' = Err ExValue.
Proof. do 3 eexists. repeat split; vm_compute; reflexivity. Qed.
