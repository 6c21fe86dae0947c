(** C53: what is read from a language model's solution (llmlift_scripts/parser.py) means
    what the solution computes in Python. *)

From Coq Require Import String List ZArith Bool Lia Permutation.
From Verif Require Import Ast Dict Semantics SmtPrelude SmtProofs RktModel RktProofs LibSem ListOps ObjModel TensDemo Properties_Rkt Properties_Obj LmModel LmSem LmProofs LmProofs4 LmProofs5 LmProofs8.
Import ListNotations.
Local Open Scope string_scope.
Local Open Scope list_scope.
Local Open Scope Z_scope.

(** One function [f] of a solution.  [D] is what Python computes for called functions;
    [I] gives them the same results ([agree]) and gives the lambdas that were found the
    value of their bodies ([defines]).  The declaration [d] has the parameters of [f], in
    some order; [I]'s value of [f], on the same values for the same parameters, is of the
    result's type, and it is what Python computes, if Python computes something. *)
Theorem C53_function_partial : forall I D names sigs calls Ds f s d s' g vals,
  host I -> agree I D sigs -> Forall (defines I (globals calls)) Ds ->
  parse_fun sigs f s = (Ok d, s') -> incl (s_decls s') Ds -> incl (s_calls s') calls ->
  tidy d = true -> covered sigs (map snd calls) f -> dget sigs (f_name f) = Some g -> Forall2 vty (g_args g) vals ->
  exists t b qs, d = Node KFnDeclRec t (Atom (PStr (f_name f)) :: b :: qs) /\ Permutation (map vname qs) (f_params f) /\
    exists v, vty (g_ret g) v /\
      (forall ws, Permutation (combine (f_params f) vals) (combine (map vname qs) ws) -> List.length ws = List.length qs ->
         i_call I (f_name f) ws = Some v) /\
      (forall w, pcall true D names f vals = Some w -> w = v).
Proof.
  intros I D names sigs calls Ds f s d s' g vals HO AG DEF E I1 I2 TD CV DG F.
  destruct (fun_sound I D names sigs calls Ds HO AG DEF f s d s' g vals E I1 I2 TD CV DG F) as (t & b & qs & A & B & _ & C). exists t, b, qs. auto.
Qed.
Print Assumptions C53_function_partial.

(** A whole solution that has been accepted, whose functions have their parameters in the
    order of their names (otherwise calls between them are wrong: [C53_refuted_order]).
    [L] is what Python computes for the functions of the DSL.  What a run of the solution
    returns is what the declarations mean. *)
Theorem C53_solution_partial : forall I L names expected target dsl lams cnt s sigs,
  host I -> check_solution expected target dsl lams cnt = (Ok tt, s) -> sign (target ++ dsl) [] = Ok sigs ->
  Forall (defines I (globals (s_calls s))) (s_decls s) -> forallb tidy (s_decls s) = true ->
  Forall (covered sigs (map snd (s_calls s))) target -> Forall (fun f => ordered (f_params f) = true) target ->
  (forall f g vs, dget sigs f = Some g -> Forall2 (arg_ty I) (g_args g) vs -> exists v, i_call I f vs = Some v /\ vty (g_ret g) v) ->
  (forall f g ps vs v, find_fun target f = None -> dget sigs f = Some g -> args_rel I (g_args g) ps vs -> L f ps = Some v -> i_call I f vs = Some v) ->
  forall fuel f g vals v, dget sigs f = Some g -> Forall2 vty (g_args g) vals ->
    run fuel target L names f (map PV vals) = Some v -> i_call I f vals = Some v.
Proof.
  intros I L names expected target dsl lams cnt s sigs HO E SG DEF TD COV ORD TOT LIB fuel f g vals v DG F R.
  unfold check_solution in E. destruct (negb _); [discriminate|]. rewrite SG in E.
  assert (OO : Forall (in_order sigs) target).
  { rewrite Forall_forall in COV, ORD |- *. intros x X. eapply ordered_in_order; eauto. }
  apply (ag_same _ _ _ (run_sound I L names sigs target _ s HO E DEF TD COV TOT LIB OO fuel) f g (map PV vals)); auto.
  clear - F. induction F; cbn; constructor; auto. now constructor.
Qed.
Print Assumptions C53_solution_partial.

(** The passes that follow.  In each declaration of an accepted solution, the functions
    that are arguments of calls become their names, and nothing else changes. *)
Theorem C53_replaced : forall expected target dsl lams cnt s sigs,
  check_solution expected target dsl lams cnt = (Ok tt, s) -> sign (target ++ dsl) [] = Ok sigs ->
  forallb tidy (s_decls s) = true -> Forall (covered sigs (map snd (s_calls s))) target ->
  forall f, In f target -> exists d, In d (s_decls s) /\ is_decl d = true /\ decl_name d = f_name f /\
    replace_in_calls (s_calls s) d = Ok (erase d).
Proof.
  intros expected target dsl lams cnt s sigs E SG TD COV. unfold check_solution in E. destruct (negb _); [discriminate|]. rewrite SG in E. eapply funs_replaced; eauto.
Qed.
Print Assumptions C53_replaced.

(** The predicate [.._ps] that verification conditions use: on arguments and a value [w],
    it says whether [w] is what Python computes.  [o] is the name of the output. *)
Theorem C53_predicate_partial : forall I D names sigs calls Ds f s d s' g vals o to p,
  host I -> agree I D sigs -> Forall (defines I (globals calls)) Ds ->
  parse_fun sigs f s = (Ok d, s') -> incl (removelast (s_decls s')) Ds -> incl (s_calls s') calls ->
  tidy d = true -> covered sigs (map snd calls) f -> dget sigs (f_name f) = Some g -> Forall2 vty (g_args g) vals ->
  ~ In o (f_params f) -> ~ In o (map snd calls) -> ps_decl d (mkVar o to) = Ok p -> defines I (globals calls) p ->
  exists t b qs, p = Node KFnDeclRec t (Atom (PStr (f_name f ++ "_ps")) :: b :: qs ++ [mkVar o to]) /\ Permutation (map vname qs) (f_params f) /\
    forall ws w, Permutation (combine (f_params f) vals) (combine (map vname qs) ws) -> List.length ws = List.length qs ->
      exists v, vty (g_ret g) v /\ i_call I (f_name f ++ "_ps") (ws ++ [w]) = Some (VBool (val_eqb w v)) /\
        (forall w', pcall true D names f vals = Some w' -> w' = v).
Proof. intros. eapply ps_sound; eauto. Qed.
Print Assumptions C53_predicate_partial.

(** ** A solution that meets the hypotheses *)

Definition m_int : mty := MInstance "builtins.int" [].
Definition m_list (t : mty) : mty := MInstance "builtins.list" [t].
(** a DSL with [def apply(x: int, f: Callable[[int], int]) -> int: ...] *)
Definition dsl_apply : pfun := {| f_name := "apply"; f_params := ["x"; "f"]; f_type := MCallable [m_int; MCallable [m_int] m_int] m_int; f_body := [SOther] |}.
(** [def top(xs: List[int], y: int) -> int: return apply(xs[0] if len(xs) > 0 else y, lambda x: x + 1)] *)
Definition sol_top : pfun :=
  {| f_name := "top"; f_params := ["xs"; "y"]; f_type := MCallable [m_list m_int; m_int] m_int;
     f_body := [SReturn (Some (NCall "apply"
       [NCond (NCmp [NCall "len" [NName "xs" (m_list m_int)] [None] m_int; NInt 0] [">"]) (NIndex (NName "xs" (m_list m_int)) (NInt 0)) (NName "y" m_int);
        NLambda ["x"] (MCallable [m_int] m_int) (NOp "+" (NName "x" m_int) (NInt 1))] [None; None] m_int))] |}.
Definition read_top : res unit * pst := check_solution 1 [sol_top] [dsl_apply] [] [].
Definition top_st : pst := snd read_top.
Definition top_sigs : dict psig := Eval compute in match sign ([sol_top] ++ [dsl_apply]) [] with Ok d => d | Err _ => [] end.

Definition base_call (f : string) (vs : list val) : option val :=
  if String.eqb f "f_0" then match vs with [VInt x] => Some (VInt (x + 1)) | _ => None end
  else i_call (demo rkt_call (fun _ _ => None)) f vs.
Definition apply_call (f : string) (vs : list val) : option val :=
  if String.eqb f "apply" then match vs with [x; VFn g] => base_call g [x] | _ => None end else base_call f vs.
Definition top_body : expr := match nth 1 (s_decls top_st) (Atom PNone) with Node _ _ (_ :: b :: _) => b | e => e end.
Definition host_of (c : string -> list val -> option val) : interp := {| i_div := fun a b => Some (a / b); i_mod := fun a b => Some (a mod b); i_call := c |}.
Definition top_value (vs : list val) : option val :=
  match bind ["xs"; "y"] vs (globals (s_calls top_st)) with Some r => eval (host_of apply_call) r (erase top_body) | None => None end.
Definition top_call (f : string) (vs : list val) : option val :=
  if String.eqb f "top" then top_value vs
  else if String.eqb f "top_ps" then
    match vs with [a; b; w] => match top_value [a; b] with Some v => Some (VBool (val_eqb w v)) | None => None end | _ => None end
  else apply_call f vs.
Definition top_I : interp := host_of top_call.
(** Python's [apply] *)
Definition apply_py (f : string) (ps : list pval) : option val :=
  if String.eqb f "apply" then match ps with [PV x; PF h] => h [x] | _ => None end else None.

Lemma top_host : host top_I.
Proof.
  split; try (intros; cbn; eauto; fail). left. intros f args v A. cbn [top_I host_of i_call]. unfold top_call, apply_call, base_call.
  destruct (String.eqb_spec f "top") as [->|_]; [discriminate A|]. destruct (String.eqb_spec f "top_ps") as [->|_]; [discriminate A|].
  destruct (String.eqb_spec f "apply") as [->|_]; [discriminate A|]. destruct (String.eqb_spec f "f_0") as [->|_]; [discriminate A|].
  exact (demo_follows rkt_call (fun _ _ => None) rkt_sorted f args v A).
Qed.
Lemma top_len l : base_call "list_length" [vl l] = Some (VInt (zlen l)).
Proof. exact (lib_len _ _ (rkt_list_lib _ (demo_follows rkt_call (fun _ _ => None) rkt_sorted)) l). Qed.
Lemma top_get0 x l : base_call "list_get" [vl (x :: l); VInt 0] = Some (VInt x).
Proof. exact (lib_get0 _ _ (rkt_list_lib _ (demo_follows rkt_call (fun _ _ => None) rkt_sorted)) x l). Qed.
Lemma top_val l y : top_value [vl l; VInt y] = Some (VInt (match l with [] => y | x :: _ => x end + 1)).
Proof.
  unfold top_value. cbn [bind]. set (b := erase top_body). vm_compute in b. subst b. cbn -[base_call vl zlen Z.add Z.ltb].
  rewrite top_len. destruct l as [|x l]; [reflexivity|]. assert (Z : 0 <? zlen (x :: l) = true) by (apply Z.ltb_lt; unfold zlen; cbn [List.length]; lia). unfold int2. rewrite Z. cbn -[base_call vl]. rewrite top_get0. reflexivity.
Qed.
Lemma vl_inv l l' : vl l = vl l' -> l = l'.
Proof. unfold vl. intros E. injection E as E. revert l' E. induction l as [|x l IH]; intros [|y l'] E; try discriminate; [reflexivity|]. cbn in E. injection E as -> E. now rewrite (IH _ E). Qed.
Lemma top_total : forall f g vs, dget top_sigs f = Some g -> Forall2 (arg_ty top_I) (g_args g) vs -> exists v, i_call top_I f vs = Some v /\ vty (g_ret g) v.
Proof.
  intros f g vs DG F. cbn in DG. destruct (String.eqb_spec f "top") as [->|_].
  - injection DG as <-. cbn in F. inversion F as [|? ? ? ? A1 F1]; subst. inversion F1 as [|? ? ? ? A2 F2]; subst. inversion F2; subst. cbn in A1, A2. destruct A1 as (l & ->), A2 as (y & ->). eexists. split; [exact (top_val l y)|]. cbn. eauto.
  - destruct (String.eqb_spec f "apply") as [->|_]; [|discriminate]. injection DG as <-. cbn in F. inversion F as [|? ? ? ? A1 F1]; subst. inversion F1 as [|? ? ? ? A2 F2]; subst. inversion F2; subst. cbn [arg_ty vty] in A1, A2. destruct A1 as (x & ->), A2 as (h & -> & TF).
    destruct (TF [VInt x]) as (v & E & V); [constructor; [cbn; eauto|constructor]|]. exists v. split; [|exact V]. cbn in E |- *. unfold top_call, apply_call in E |- *. cbn.
    destruct (String.eqb h "top"); [discriminate|]. destruct (String.eqb h "top_ps"); [discriminate|]. destruct (String.eqb h "apply"); [discriminate|exact E].
Qed.
Lemma top_lib : forall f g ps vs v, find_fun [sol_top] f = None -> dget top_sigs f = Some g -> args_rel top_I (g_args g) ps vs -> apply_py f ps = Some v -> i_call top_I f vs = Some v.
Proof.
  intros f g ps vs v NF DG AR A. unfold apply_py in A. destruct (String.eqb_spec f "apply") as [->|_]; [|discriminate]. cbn in DG. injection DG as <-. cbn in AR.
  inversion AR as [|? ? ? ? ? ? R1 AR1]; subst. inversion AR1 as [|? ? ? ? ? ? R2 AR2]; subst. inversion AR2; subst. inversion R1 as [? ? V1|]; subst.
  inversion R2 as [|? ? h w TF SF]; subst; [discriminate|]. destruct V1 as (x & ->).
  pose proof (SF [VInt x] v) as S1. assert (E : i_call top_I w [VInt x] = Some v) by (apply S1; [constructor; [cbn; eauto|constructor]|exact A]).
  cbn in E |- *. unfold top_call, apply_call in E |- *. cbn. destruct (String.eqb w "top"); [discriminate|]. destruct (String.eqb w "top_ps"); [discriminate|]. destruct (String.eqb w "apply"); [discriminate|exact E].
Qed.
Lemma bind1 p vs G r : bind [p] vs G = Some r -> exists v, vs = [v] /\ r = upd G p v.
Proof. destruct vs as [|v [|? ?]]; try discriminate. cbn. intros E. injection E as <-. eauto. Qed.
Lemma bind2 p q vs G r : bind [p; q] vs G = Some r -> exists v w, vs = [v; w] /\ r = upd (upd G q w) p v.
Proof. destruct vs as [|v [|w [|? ?]]]; try discriminate. cbn. intros E. injection E as <-. eauto. Qed.
Lemma bind3 p q o vs G r : bind [p; q; o] vs G = Some r -> exists v w u, vs = [v; w; u] /\ r = upd (upd (upd G o u) q w) p v.
Proof. destruct vs as [|v [|w [|u [|? ?]]]]; try discriminate. cbn. intros E. injection E as <-. eauto 6. Qed.
Lemma top_defines : Forall (defines top_I (globals (s_calls top_st))) (s_decls top_st).
Proof.
  set (ds := s_decls top_st). set (cs := s_calls top_st). vm_compute in ds. vm_compute in cs. subst ds cs. constructor; [|constructor; [|constructor]].
  - intros vs r E. apply bind1 in E as (v & -> & ->). cbn. destruct v; reflexivity.
  - intros vs r E. cbn [map vname] in E. pose proof E as E'. apply bind2 in E as (v & w & -> & ->). cbn [i_call top_I host_of]. unfold top_call. cbn [String.eqb Ascii.eqb Bool.eqb].
    unfold top_value. set (cs := s_calls top_st). vm_compute in cs. subst cs. rewrite E'. set (b := erase top_body). vm_compute in b. subst b. reflexivity.
Qed.

Lemma top_covered : Forall (covered top_sigs (map snd (s_calls top_st))) [sol_top].
Proof.
  constructor; [|constructor]. eexists _, _. split; [reflexivity|]. split; [reflexivity|]. split; [repeat constructor; cbn; intuition discriminate|]. repeat split; vm_compute; reflexivity.
Qed.
(** all hypotheses of [C53_solution_partial] and [C53_replaced] hold of the solution above;
    on a list that is not empty Python computes its first element plus one *)
Example C53_example :
  host top_I /\ read_top = (Ok tt, top_st) /\ sign ([sol_top] ++ [dsl_apply]) [] = Ok top_sigs /\
  Forall (defines top_I (globals (s_calls top_st))) (s_decls top_st) /\ forallb tidy (s_decls top_st) = true /\
  Forall (covered top_sigs (map snd (s_calls top_st))) [sol_top] /\ Forall (fun f => ordered (f_params f) = true) [sol_top] /\
  (forall x l y, run 1 [sol_top] apply_py (fun _ => None) "top" (map PV [vl (x :: l); VInt y]) = Some (VInt (x + 1)) /\
                 i_call top_I "top" [vl (x :: l); VInt y] = Some (VInt (x + 1))) /\
  map decl_name (s_decls top_st) = ["f_0"; "top"] /\ s_calls top_st = [("apply", "f_0")].
Proof.
  split; [exact top_host|]. split; [vm_compute; reflexivity|]. split; [reflexivity|]. split; [exact top_defines|]. split; [vm_compute; reflexivity|]. split; [exact top_covered|].
  split; [constructor; [reflexivity|constructor]|]. split; [|split; vm_compute; reflexivity]. intros x l y. split; [|exact (top_val (x :: l) y)].
  cbn -[Z.add Z.ltb py_len py_index]. unfold pvalue. cbn -[Z.add Z.ltb py_len py_index]. assert (Z : 0 <? py_len (VInt x :: map VInt l) = true) by (apply Z.ltb_lt; unfold py_len; cbn [List.length]; lia). rewrite Z. cbn -[Z.add Z.ltb py_len py_index].
  unfold py_index. cbn [Z.ltb Z.compare]. rewrite Z. reflexivity.
Qed.
Lemma top_agree : agree top_I (run 0 [sol_top] apply_py (fun _ => None)) top_sigs.
Proof.
  split; [exact top_total|]. intros f g ps vs v DG AR R. cbn [run] in R. destruct (find_fun [sol_top] f) eqn:NF; [discriminate|]. exact (top_lib f g ps vs v NF DG AR R).
Qed.
(** ... and those of [C53_function_partial] and [C53_predicate_partial] *)
Example C53_example_function : exists s d s' g p,
  agree top_I (run 0 [sol_top] apply_py (fun _ => None)) top_sigs /\
  parse_fun top_sigs sol_top s = (Ok d, s') /\ incl (s_decls s') (s_decls top_st) /\ s_calls s' = s_calls top_st /\ tidy d = true /\
  dget top_sigs "top" = Some g /\ Forall2 vty (g_args g) [vl [3; 4]; VInt 5] /\
  ps_decl d (mkVar "out" TInt) = Ok p /\ defines top_I (globals (s_calls top_st)) p /\
  i_call top_I "top_ps" [vl [3; 4]; VInt 5; VInt 4] = Some (VBool true) /\ i_call top_I "top_ps" [vl [3; 4]; VInt 5; VInt 5] = Some (VBool false).
Proof.
  exists {| s_decls := []; s_calls := []; s_lams := []; s_count := [] |}. set (R := parse_fun top_sigs sol_top {| s_decls := []; s_calls := []; s_lams := []; s_count := [] |}). vm_compute in R.
  match goal with R := (Ok ?d, ?s) |- _ => exists d, s end. eexists _, _. split; [exact top_agree|]. split; [reflexivity|].
  split; [vm_compute; intros x X; exact X|]. split; [vm_compute; reflexivity|]. split; [reflexivity|]. split; [reflexivity|].
  split; [constructor; [cbn; eauto|constructor; [cbn; eauto|constructor]]|]. split; [cbn; reflexivity|]. split.
  - intros vs r E. cbn [map app mkVar vname] in E. apply bind3 in E as (v & w & u & -> & ->). cbn [i_call top_I host_of]. unfold top_call. cbn [String.eqb Ascii.eqb Bool.eqb].
    unfold top_value. cbn [bind]. set (cs := s_calls top_st). vm_compute in cs. subst cs. set (b := erase top_body). vm_compute in b. subst b.
    cbn -[base_call top_call]. unfold top_call, apply_call. cbn -[base_call].
    repeat match goal with |- context [match ?m with _ => _ end] => destruct m; try reflexivity end.
  - change (i_call top_I "top_ps" [vl [3; 4]; VInt 5; VInt 4]) with (match top_value [vl [3; 4]; VInt 5] with Some v => Some (VBool (val_eqb (VInt 4) v)) | None => None end).
    change (i_call top_I "top_ps" [vl [3; 4]; VInt 5; VInt 5]) with (match top_value [vl [3; 4]; VInt 5] with Some v => Some (VBool (val_eqb (VInt 5) v)) | None => None end).
    rewrite top_val. split; reflexivity.
Qed.

(** ** What is not read as Python means it *)

Definition st0 : pst := {| s_decls := []; s_calls := []; s_lams := []; s_count := [] |}.
Definition no_fun : string -> list pval -> option val := fun _ _ => None.
Definition no_names : string -> option (list string) := fun _ => None.

(** the elements of [[1, 2]] are dropped (parser.py:436-438) *)
Theorem C53_refuted_display : exists n e s, parse [] n st0 = (Ok e, s) /\
  pvalue false no_fun no_names none_env n = Some (vl [1; 2]) /\
  forall I r, backend I -> eval I r (erase e) = Some (vl []).
Proof.
  exists (NList [NInt 1; NInt 2] (m_list m_int)). eexists _, _. split; [reflexivity|]. split; [reflexivity|]. intros I r B. cbn.
  destruct B as [B|(S & P & B)]; [exact (lib_empty _ _ (rkt_list_lib _ B))|exact (lib_empty _ _ (smt_list_lib _ _ P B))].
Qed.
Print Assumptions C53_refuted_display.

(** [xs[0:2:2]] is read as [xs[0:2]] (parser.py:479-503) *)
Theorem C53_refuted_step : exists b st en, (forall sigs step, parse sigs (NSlice b st en (Some step)) = parse sigs (NSlice b st en None)) /\
  fst (parse [] (NSlice b st en None) st0) <> Err ExNYI /\
  pvalue false no_fun no_names (upd none_env "xs" (vl [1; 2; 3])) (NSlice b st en (Some (NInt 2))) = Some (vl [1]) /\
  pvalue false no_fun no_names (upd none_env "xs" (vl [1; 2; 3])) (NSlice b st en None) = Some (vl [1; 2]).
Proof. exists (NName "xs" (m_list m_int)), (Some (NInt 0)), (Some (NInt 2)). split; [reflexivity|]. split; [discriminate|split; vm_compute; reflexivity]. Qed.
Print Assumptions C53_refuted_step.

(** [sub(b=1, a=2)] is read as [sub(1, 2)] *)
Definition sub_sigs : dict psig := [("sub", {| g_args := [TInt; TInt]; g_ret := TInt; g_names := ["a"; "b"] |})].
Definition sub_py (f : string) (ps : list pval) : option val :=
  match ps with [PV (VInt a); PV (VInt b)] => if String.eqb f "sub" then Some (VInt (a - b)) else None | _ => None end.
Theorem C53_refuted_keywords : exists n e s, parse sub_sigs n st0 = (Ok e, s) /\
  pvalue false sub_py (fun _ => Some ["a"; "b"]) none_env n = Some (VInt 1) /\
  forall I r, agree I sub_py sub_sigs -> eval I r (erase e) = Some (VInt (-1)).
Proof.
  exists (NCall "sub" [NInt 1; NInt 2] [Some "b"; Some "a"] m_int). eexists _, _. split; [reflexivity|]. split; [reflexivity|]. intros I r [_ S]. cbn.
  eapply (S "sub" _ [PV (VInt 1); PV (VInt 2)]); [reflexivity| |reflexivity]. cbn. repeat constructor; cbn; eauto.
Qed.
Print Assumptions C53_refuted_keywords.

(** Parameters are sorted by name (parser.py:254-256), the arguments of calls are not: with
    [def sub(y: int, x: int) -> int: return y - x], what [sub(5, 3)] means is [3 - 5]. *)
Definition sol_sub : pfun := {| f_name := "sub"; f_params := ["y"; "x"]; f_type := MCallable [m_int; m_int] m_int; f_body := [SReturn (Some (NOp "-" (NName "y" m_int) (NName "x" m_int)))] |}.
Definition sol_use : pfun := {| f_name := "use"; f_params := []; f_type := MCallable [] m_int; f_body := [SReturn (Some (NCall "sub" [NInt 5; NInt 3] [None; None] m_int))] |}.
Theorem C53_refuted_order : exists s, check_solution 2 [sol_sub; sol_use] [] [] [] = (Ok tt, s) /\ forallb tidy (s_decls s) = true /\
  run 2 [sol_sub; sol_use] no_fun no_names "use" [] = Some (VInt 2) /\
  forall I, Forall (defines I (globals (s_calls s))) (s_decls s) -> i_call I "use" [] = Some (VInt (-2)).
Proof.
  eexists. split; [vm_compute; reflexivity|]. split; [reflexivity|]. split; [vm_compute; reflexivity|]. intros I D. cbn [s_decls s_calls] in D. inversion D as [|? ? D1 D']; subst. inversion D' as [|? ? D2 _]; subst.
  rewrite (D2 [] _ eq_refl). cbn -[defines]. rewrite (D1 [VInt 5; VInt 3] _ eq_refl). reflexivity.
Qed.
Print Assumptions C53_refuted_order.

(** A lambda that uses a variable of the function around it becomes a function without
    that variable: what it means has no value. *)
Definition sol_capture : pfun := {| f_name := "top"; f_params := ["x"; "y"]; f_type := MCallable [m_int; m_int] m_int;
  f_body := [SReturn (Some (NCall "apply" [NName "x" m_int; NLambda ["z"] (MCallable [m_int] m_int) (NOp "+" (NName "z" m_int) (NName "y" m_int))] [None; None] m_int))] |}.
Theorem C53_refuted_capture : exists s, check_solution 1 [sol_capture] [dsl_apply] [] [] = (Ok tt, s) /\ forallb tidy (s_decls s) = true /\
  map decl_name (s_decls s) = ["f_0"; "top"] /\
  run 1 [sol_capture] apply_py no_names "top" [PV (VInt 1); PV (VInt 2)] = Some (VInt 3) /\
  forall I v, Forall (defines I (globals (s_calls s))) (s_decls s) -> i_call I "f_0" [v] = None.
Proof.
  eexists. split; [vm_compute; reflexivity|]. split; [reflexivity|]. split; [reflexivity|]. split; [vm_compute; reflexivity|]. intros I v D. cbn [s_decls s_calls] in D. inversion D as [|? ? D1 D']; subst.
  rewrite (D1 [v] _ eq_refl). cbn. now destruct v.
Qed.
Print Assumptions C53_refuted_capture.

(** [/] is read as [//] (parser.py:397) *)
Theorem C53_refuted_division : forall sigs a b, parse sigs (NOp "/" a b) = parse sigs (NOp "//" a b).
Proof. reflexivity. Qed.
Print Assumptions C53_refuted_division.

(** [True] is read as a variable of that name, which has no value. *)
Theorem C53_refuted_true : parse [] (NName "True" (MInstance "builtins.bool" [])) st0 = (Ok (mkVar "True" TBool), st0) /\
  forall I calls, ~ In "True" (map snd calls) -> eval I (globals calls) (mkVar "True" TBool) = None.
Proof. split; [reflexivity|]. intros I calls N. cbn. unfold globals. destruct (smem "True" (map snd calls)) eqn:Q; [apply smem_is in Q; tauto|reflexivity]. Qed.
Print Assumptions C53_refuted_true.

(** A minus sign leaves an object in the expression (parser.py:431); if the solution also
    passes a function, [replace_in_calls] raises and the search ends. *)
Definition sol_minus : pfun := {| f_name := "top"; f_params := ["x"]; f_type := MCallable [m_int] m_int;
  f_body := [SReturn (Some (NCall "apply" [NUnary "-" (NName "x" m_int); NLambda ["z"] (MCallable [m_int] m_int) (NName "z" m_int)] [None; None] m_int))] |}.
Theorem C53_refuted_minus : exists s d, check_solution 1 [sol_minus] [dsl_apply] [] [] = (Ok tt, s) /\ In d (s_decls s) /\
  replace_in_calls (s_calls s) d = Err ExAttr.
Proof. eexists _, _. split; [vm_compute; reflexivity|]. split; [right; left; reflexivity|vm_compute; reflexivity]. Qed.
Print Assumptions C53_refuted_minus.
