(** C54: what the loop of llmlift_scripts/synthesis.py reports, and C55: the names it
    gives to lambdas. *)

From Coq Require Import String List ZArith Bool Lia.
From Verif Require Import Ast IrProofs Dict Semantics SynthModel LmModel LmSem LmProofs LmProofs5 LmProofs6 LmProofs7 LmLoop LmLoopSem LmLoopProofs Properties_Lm.
Import ListNotations.
Local Open Scope string_scope.
Local Open Scope list_scope.

Lemma run_ends w cfg sol tr : run_llm w cfg = (Done sol, tr) ->
  exists m s ds1 calls1 tr1, In (EAsk m sol) tr1 /\ m_prompt m = PsPrompt /\ solution_of w cfg sol s ds1 calls1 /\ ends_well w cfg (names_of s) ds1 calls1 tr1 tr.
Proof.
  unfold run_llm. destruct (ps_loop w cfg (c_max_ps cfg) [] []) as [[[x|]|x] tr'] eqn:E; intros X; try discriminate. injection X as -> ->. exact (ps_loop_ends _ _ _ _ _ _ _ E).
Qed.

(** ** C54 *)

(** A solution that is reported, when Rosette verifies: the model gave it as a solution, it
    gave some invariant, the parser accepted both, and the last thing that happened is
    that Rosette was run on the file made of them and exited with code 0 after printing
    (unsat). *)
Theorem C54_rosette : forall w cfg sol tr, c_method cfg = VRosette -> run_llm w cfg = (Done sol, tr) ->
  exists m s ds1 calls1 m' inv ps s' ds2 calls2 tr' f p,
    asked tr m sol /\ m_prompt m = PsPrompt /\ solution_of w cfg sol s ds1 calls1 /\
    asked tr m' inv /\ m_prompt m' = InvPrompt ps /\ invariant_of w cfg s inv s' ds2 calls2 /\
    tr = tr' ++ [EVerify f (Some p)] /\ rosette_file cfg ds1 ds2 (calls1 ++ calls2) f /\
    o_run w tr' f = Some p /\ p_code p = 0%Z /\ first_line (p_out p) = "(unsat)".
Proof.
  intros w cfg sol tr ME R. destruct (run_ends _ _ _ _ R) as (m & s & ds1 & calls1 & tr1 & A1 & A2 & A3 & (tr2 & m' & inv & s' & l' & ds2 & calls2 & all & vc & tr3 & -> & I1 & B1 & (ps & B2) & AF & AC & PS & VC & V)).
  unfold verify_with in V. rewrite ME in V. unfold verify_rosette in V.
  destruct (mapR (replace_in_calls (calls1 ++ calls2)) (rkt_fns (c_dsl cfg))) as [fs|] eqn:MF; [|discriminate].
  destruct (mapR (replace_in_calls (calls1 ++ calls2)) all) as [ds|] eqn:MD; [|discriminate]. cbv zeta in V.
  set (f := {| v_dsl := fs; v_decls := ds; v_vc := vc |}) in *. destruct (o_run w tr2 f) as [p|] eqn:O; [|discriminate]. destruct (Z.eqb (p_code p) 0) eqn:C; [|discriminate]. injection V as U <-.
  exists m, s, ds1, calls1, m', inv, ps, s', ds2, calls2, tr2, f, p.
  split; [apply in_or_app; left; auto|]. split; [exact A2|]. split; [exact A3|]. split; [apply in_or_app; left; auto|]. split; [exact B2|]. split; [exists l'; auto|]. split; [reflexivity|].
  split; [|repeat split; [exact O|now apply Z.eqb_eq|now apply String.eqb_eq]].
  destruct (py_set_in _ _ _ PS) as (_ & P2 & P3). destruct (mapR_in _ _ _ MD) as [M1 M2]. destruct (mapR_in _ _ _ MF) as [F1 F2]. split; [|split; [|split]].
  - intros d' Hd. destruct (M1 d' Hd) as (d & X & Y). exists d. split; [|exact Y]. destruct (P2 d X) as [[]|Z]. exact Z.
  - intros d Hd. destruct (P3 d Hd) as (k & K1 & K2). destruct (M2 k K2) as (d' & X & Y). exists k, d'. split; [exact K1|]. split; [|auto]. destruct (P2 k K2) as [[]|Z]. exact Z.
  - intros d Hd N1 N2 N3. apply F2. apply filter_In. split; [exact Hd|]. rewrite N1, N3. destruct (String.eqb_spec (decl_name d) "firsts"); [contradiction|reflexivity].
  - exact VC.
Qed.
Print Assumptions C54_rosette.

(** When cvc5 verifies, the same is false ([C54_refuted_smt]).  What is true: it was run,
    and not killed by a signal. *)
Theorem C54_smt_partial : forall w cfg sol tr, c_method cfg = VSmt -> run_llm w cfg = (Done sol, tr) ->
  exists m s ds1 calls1 m' inv ps s' ds2 calls2 tr' f p,
    asked tr m sol /\ m_prompt m = PsPrompt /\ solution_of w cfg sol s ds1 calls1 /\
    asked tr m' inv /\ m_prompt m' = InvPrompt ps /\ invariant_of w cfg s inv s' ds2 calls2 /\
    tr = tr' ++ [EVerify f (Some p)] /\ o_run w tr' f = Some p /\ (0 <= p_code p)%Z.
Proof.
  intros w cfg sol tr ME R. destruct (run_ends _ _ _ _ R) as (m & s & ds1 & calls1 & tr1 & A1 & A2 & A3 & (tr2 & m' & inv & s' & l' & ds2 & calls2 & all & vc & tr3 & -> & I1 & B1 & (ps & B2) & AF & AC & PS & VC & V)).
  unfold verify_with in V. rewrite ME in V. unfold verify_smt in V. cbv zeta in V. set (f := {| v_dsl := smt_fns _ _; v_decls := all; v_vc := vc |}) in *.
  destruct (o_run w tr2 f) as [p|] eqn:O; [|discriminate]. injection V as U <-. exists m, s, ds1, calls1, m', inv, ps, s', ds2, calls2, tr2, f, p.
  split; [apply in_or_app; left; auto|]. split; [exact A2|]. split; [exact A3|]. split; [apply in_or_app; left; auto|]. split; [exact B2|]. split; [exists l'; auto|]. split; [reflexivity|]. split; [exact O|].
  destruct (Z.ltb_spec (p_code p) 0); [discriminate|assumption].
Qed.
Print Assumptions C54_smt_partial.

(** Without a verifier nothing is ever reported. *)
Theorem C54_none : forall w cfg sol tr, c_method cfg = VNone -> run_llm w cfg <> (Done sol, tr).
Proof.
  intros w cfg sol tr ME R. destruct (run_ends _ _ _ _ R) as (m & s & ds1 & calls1 & tr1 & A1 & A2 & A3 & (tr2 & m' & inv & s' & l' & ds2 & calls2 & all & vc & tr3 & -> & I1 & B1 & (ps & B2) & AF & AC & PS & VC & V)).
  unfold verify_with in V. rewrite ME in V. discriminate.
Qed.
Print Assumptions C54_none.

(** Every question shows the answers given before to the same question, in all runs. *)
Theorem C54_shown : forall w cfg r tr, run_llm w cfg = (r, tr) -> shown tr.
Proof.
  intros w cfg r tr R. unfold run_llm in R. destruct (ps_loop w cfg (c_max_ps cfg) [] []) as [x tr'] eqn:E.
  assert (tr' = tr) by (destruct x as [[?|]|?]; injection R as _ <-; reflexivity). subst tr'.
  refine (ps_loop_shown _ _ _ _ _ _ _ _ _ E); [|reflexivity]. intros a m t b X. destruct a; discriminate X.
Qed.
Print Assumptions C54_shown.

(** Nothing is missed: if no solution is found, as many solutions were asked for as is
    allowed, and Rosette accepted no file. *)
Theorem C54_not_found : forall w cfg tr, c_method cfg = VRosette -> run_llm w cfg = (Raised LNotFound, tr) ->
  count is_ps_ask tr = c_max_ps cfg /\
  forall f o, In (EVerify f o) tr -> exists p, o = Some p /\ (p_code p <> 0%Z \/ first_line (p_out p) <> "(unsat)").
Proof.
  intros w cfg tr ME R. unfold run_llm in R. destruct (ps_loop w cfg (c_max_ps cfg) [] []) as [[[x|]|x] tr'] eqn:E; try discriminate R; [injection R as <-|].
  - destruct (ps_loop_fails _ _ ME _ _ _ _ E) as (l & -> & F & C). split; [exact C|]. intros f o IN. exact (proj1 (Forall_forall _ _) F _ IN).
  - injection R as -> ->. destruct (ps_loop_raises _ _ _ _ _ _ E).
Qed.
Print Assumptions C54_not_found.

(** The model is asked a bounded number of times. *)
Theorem C54_questions : forall w cfg r tr, run_llm w cfg = (r, tr) ->
  (count is_ps_ask tr <= c_max_ps cfg /\ count is_inv_ask tr <= c_max_ps cfg * c_max_inv cfg)%nat.
Proof.
  intros w cfg r tr R. unfold run_llm in R. destruct (ps_loop w cfg (c_max_ps cfg) [] []) as [x tr'] eqn:E.
  assert (tr' = tr) by (destruct x as [[?|]|?]; injection R as _ <-; reflexivity). subst tr'. apply ps_loop_count in E. exact E.
Qed.
Print Assumptions C54_questions.


(** *** Runs *)

(** [def invariant(i: int, xs: List[int], y: int) -> bool: return apply(y, lambda x: x + 1) > apply(i, lambda x: x + 2)] *)
Definition inc (k : Z) : pnode := NLambda ["x"] (MCallable [m_int] m_int) (NOp "+" (NName "x" m_int) (NInt k)).
Definition sol_inv : pfun :=
  {| f_name := "invariant"; f_params := ["i"; "xs"; "y"]; f_type := MCallable [m_int; m_list m_int; m_int] (MInstance "builtins.bool" []);
     f_body := [SReturn (Some (NCmp [NCall "apply" [NName "y" m_int; inc 1] [None; None] m_int; NCall "apply" [NName "i" m_int; inc 2] [None; None] m_int] [">"]))] |}.
(** The model answers with text that cannot be read, then with a solution; it gives a first
    invariant and then another.  [out] is what the verifier prints for the n-th file. *)
Definition chat (out : nat -> proc) : outside :=
  {| o_llm := fun tr m => Some (match m_prompt m with
                                | PsPrompt => match m_earlier m with [] => "garbage" | _ => "solution" end
                                | InvPrompt _ => match m_earlier m with [] => "first" | _ => "second" end
                                end);
     o_read := fun t => if String.eqb t "garbage" then Err ExNYI else if String.eqb t "solution" then Ok [sol_top] else Ok [sol_inv];
     o_run := fun tr _ => Some (out (count (fun e => match e with EVerify _ _ => true | _ => false end) tr)) |}.
Definition cfg_top (v : vmethod) : config :=
  {| c_out := mkVar "out" TInt; c_bench := "top"; c_sigs := [dsl_apply]; c_dsl := []; c_double := false; c_max_ps := 3; c_max_inv := 2; c_method := v;
     c_vc := mkVar "vc" TBool |}.
Definition says (c : Z) (t : string) : proc := {| p_code := c; p_out := t |}.

(** Rosette turns the first invariant down and accepts the second: the solution is reported
    after two questions for a solution and two for an invariant. *)
Example C54_example : exists tr, run_llm (chat (fun n => says 0 (match n with 0%nat => "(model" | _ => "(unsat)" end))) (cfg_top VRosette) = (Done "solution", tr) /\
  solutions tr = ["garbage"; "solution"] /\ invariants tr = ["first"; "second"] /\
  map (fun e => match e with EVerify f _ => map decl_name (v_decls f) | _ => [] end) (filter (fun e => match e with EVerify _ _ => true | _ => false end) tr) =
    [["f_0"; "top_ps"; "f_1"; "top_inv0"]; ["f_0"; "top_ps"; "f_1"; "top_inv0"]].
Proof. eexists. split; [vm_compute; reflexivity|]. split; [reflexivity|]. split; reflexivity. Qed.
(** Rosette never accepts: nothing is reported. *)
Example C54_example_not_found : exists tr, run_llm (chat (fun n => says 0 "(model")) (cfg_top VRosette) = (Raised LNotFound, tr) /\ count is_inv_ask tr = 4%nat.
Proof. eexists. split; [vm_compute; reflexivity|reflexivity]. Qed.

(** cvc5 prints sat, so the solution is wrong; it is reported all the same
    (synthesis.py:326-344). *)
Theorem C54_refuted_smt : exists w cfg sol tr tr' f p, c_method cfg = VSmt /\ run_llm w cfg = (Done sol, tr) /\
  tr = tr' ++ [EVerify f (Some p)] /\ p_out p = "sat" /\ (forall t g, o_run w t g = Some p).
Proof.
  exists (chat (fun _ => says 0 "sat")), (cfg_top VSmt), "solution". set (R := run_llm (chat (fun _ => says 0 "sat")) (cfg_top VSmt)). vm_compute in R.
  match goal with R := (Done _, [?a; ?b; ?c; EVerify ?f (Some ?p)]) |- _ => exists [a; b; c; EVerify f (Some p)], [a; b; c], f, p end. repeat split; vm_compute; reflexivity.
Qed.
Print Assumptions C54_refuted_smt.

(** Without a verifier the first solution that can be read ends the run with an exception
    (synthesis.py:557: [verified] is not assigned). *)
Theorem C54_refuted_none : exists w cfg tr, c_method cfg = VNone /\ run_llm w cfg = (Raised LUnbound, tr).
Proof. exists (chat (fun _ => says 0 "")), (cfg_top VNone). eexists. split; [reflexivity|vm_compute; reflexivity]. Qed.
Print Assumptions C54_refuted_none.

(** ** C55 *)

Lemma check_text_names w cfg n t lams cnt r s : counted lam_ok {| s_decls := []; s_calls := []; s_lams := lams; s_count := cnt |} -> check_text w cfg n t lams cnt = (r, s) ->
  counted lam_ok s /\ incl lams (s_lams s) /\
  forall d, In d (s_decls s) -> (is_decl d = true /\ In (decl_name d) (defined_in w t)) \/ (is_var d = true \/ carries lam_ok (s_lams s) d).
Proof.
  unfold check_text, defined_in. intros C E. destruct (o_read w t) as [fs|x]; [|injection E as <- <-; cbn; split; [exact C|split; [apply incl_refl|intros d []]]].
  exact (check_names lam_ok n fs _ lams cnt r s lambda_ok C E).
Qed.
Lemma counted_names s s' : counted lam_ok s -> s_lams s = s_lams s' -> s_count s = s_count s' -> counted lam_ok s'.
Proof. unfold counted. now intros H <- <-. Qed.
Lemma after_names w cfg l l' : after w cfg l l' -> counted lam_ok {| s_decls := []; s_calls := []; s_lams := fst l; s_count := snd l |} ->
  counted lam_ok {| s_decls := []; s_calls := []; s_lams := fst l'; s_count := snd l' |} /\ incl (fst l) (fst l').
Proof.
  induction 1 as [l|l n t r s l' CT AF IH]; intros C; [split; [exact C|apply incl_refl]|]. destruct (check_text_names _ _ _ _ _ _ _ _ C CT) as (C1 & I1 & _).
  destruct IH as [C2 I2]; [eapply counted_names; [exact C1|reflexivity..]|]. split; [exact C2|]. eapply incl_tran; [exact I1|exact I2].
Qed.

(** Two declarations of lambdas (no function of the texts has their name), from the solution
    or the invariant, that have the same name: they have the same parameters and their bodies
    have the same value everywhere.  [clean]: neither an object nor [None] was left in them by
    the parser ([C55_refuted_objects]). *)
Theorem C55_shared_partial : forall w cfg sol s ds1 calls1 inv s' ds2 calls2 d1 d2,
  solution_of w cfg sol s ds1 calls1 -> invariant_of w cfg s inv s' ds2 calls2 ->
  In d1 (s_decls s ++ s_decls s') -> In d2 (s_decls s ++ s_decls s') ->
  is_decl d1 = true -> is_decl d2 = true -> clean d1 = true -> clean d2 = true ->
  ~ In (decl_name d1) (defined_in w sol ++ defined_in w inv) -> decl_name d1 = decl_name d2 ->
  exists n t1 b1 ps1 t2 b2 ps2, d1 = Node KFnDeclRec t1 (Atom (PStr n) :: b1 :: ps1) /\ d2 = Node KFnDeclRec t2 (Atom (PStr n) :: b2 :: ps2) /\
    map vname ps1 = map vname ps2 /\ (forall I r, eval I r (erase b1) = eval I r (erase b2)).
Proof.
  intros w cfg sol s ds1 calls1 inv s' ds2 calls2 d1 d2 (CT & _) (l & AF & CT' & _) I1 I2 D1 D2 L1 L2 NI N.
  assert (C0 : counted lam_ok {| s_decls := []; s_calls := []; s_lams := []; s_count := [] |}) by (split; [constructor|intros k n []]).
  destruct (check_text_names _ _ _ _ _ _ _ _ C0 CT) as (C1 & _ & N1).
  destruct (after_names _ _ _ _ AF) as [C2 J2]; [eapply counted_names; [exact C1|reflexivity..]|].
  destruct (check_text_names _ _ _ _ _ _ _ _ C2 CT') as (C3 & J3 & N3).
  assert (K : forall d, In d (s_decls s ++ s_decls s') -> is_decl d = true -> ~ In (decl_name d) (defined_in w sol ++ defined_in w inv) -> carries lam_ok (s_lams s') d).
  { intros d Hd Dd Nd. assert (V : is_var d = true -> False) by (intros V; destruct d as [|k t a]; [discriminate|destruct k; discriminate]). apply in_app_or in Hd as [Hd|Hd].
    - destruct (N1 d Hd) as [[_ X]|[X|X]]; [destruct Nd; apply in_or_app; auto|destruct (V X)|]. eapply carries_incl; [|exact X]. eapply incl_tran; [exact J2|exact J3].
    - destruct (N3 d Hd) as [[_ X]|[X|X]]; [destruct Nd; apply in_or_app; auto|destruct (V X)|exact X]. }
  assert (K1 : carries lam_ok (s_lams s') d1) by auto. assert (K2 : carries lam_ok (s_lams s') d2) by (apply K; auto; rewrite <- N; exact NI).
  pose proof (one_name s' d1 d2 C3 K1 K2 L1 L2 N) as SF. destruct (carried_rec _ _ K1 L1) as (t1 & b1 & ps1 & E1). destruct (carried_rec _ _ K2 L2) as (t2 & b2 & ps2 & E2).
  rewrite <- N in E2. rewrite E1, E2 in SF. exists (decl_name d1), t1, b1, ps1, t2, b2, ps2. destruct SF as [SF1 SF2]. auto.
Qed.
Print Assumptions C55_shared_partial.

(** The lambda [x + 1] of the solution and of the invariant has one name, [x + 2] another. *)
Example C55_example : let w := chat (fun _ => says 0 "(unsat)") in let cfg := cfg_top VRosette in
  exists s ds1 calls1 s' ds2 calls2 d1 d2 d3, solution_of w cfg "solution" s ds1 calls1 /\ invariant_of w cfg s "first" s' ds2 calls2 /\
    s_decls s = [d1; d3] /\ nth_error (s_decls s') 0 = Some d2 /\ d1 = d2 /\ clean d1 = true /\ decl_name d1 = "f_0" /\
    ~ In "f_0" (defined_in w "solution" ++ defined_in w "first") /\
    map decl_name (s_decls s') = ["f_0"; "f_1"; "invariant"].
Proof.
  cbv zeta. set (w := chat _). set (R := check_text w (cfg_top VRosette) 1 "solution" [] []). vm_compute in R. match goal with R := (_, ?s) |- _ => exists s end.
  eexists _, _. set (R' := check_text w (cfg_top VRosette) 1 "first" (s_lams (snd R)) (s_count (snd R))). vm_compute in R'. match goal with R' := (_, ?s) |- _ => exists s end.
  eexists _, _, _, _, _. split; [split; [reflexivity|split; [vm_compute; reflexivity|reflexivity]]|].
  split; [eexists; split; [apply after_none|split; [reflexivity|split; [vm_compute; reflexivity|reflexivity]]]|].
  repeat (split; [reflexivity|]). split; [vm_compute; intuition discriminate|reflexivity].
Qed.

Definition text (t : list pfun) : outside := {| o_llm := fun _ _ => None; o_read := fun _ => Ok t; o_run := fun _ _ => None |}.
Definition cfg_of (dsl : list pfun) : config :=
  {| c_out := mkVar "out" TInt; c_bench := "top"; c_sigs := dsl; c_dsl := []; c_double := false; c_max_ps := 1; c_max_inv := 1; c_method := VRosette; c_vc := mkVar "vc" TBool |}.

(** Expressions are compared without their types (ir.py:303-323): [lambda x: x] on integers
    and on lists get one name, and one of the two declarations is dropped. *)
Definition dsl_lists : pfun := {| f_name := "apply_list"; f_params := ["x"; "f"]; f_type := MCallable [m_list m_int; MCallable [m_list m_int] (m_list m_int)] (m_list m_int); f_body := [SOther] |}.
Definition sol_types : pfun := {| f_name := "top"; f_params := ["a"; "b"]; f_type := MCallable [m_int; m_list m_int] m_int;
  f_body := [SReturn (Some (NOp "+" (NCall "apply" [NName "a" m_int; NLambda ["x"] (MCallable [m_int] m_int) (NName "x" m_int)] [None; None] m_int)
    (NCall "len" [NCall "apply_list" [NName "b" (m_list m_int); NLambda ["x"] (MCallable [m_list m_int] (m_list m_int)) (NName "x" (m_list m_int))] [None; None] (m_list m_int)] [None] m_int)))] |}.
Theorem C55_refuted_types : exists s ds calls d1 d2 d3, solution_of (text [sol_types]) (cfg_of [dsl_apply; dsl_lists]) "" s ds calls /\
  ds = [d1; d2; d3] /\ decl_name d1 = decl_name d2 /\ type_of d1 = Ok (TFn [TInt; TInt]) /\ type_of d2 = Ok (TFn [TList TInt; TList TInt]) /\
  py_set ds [] = Ok [d1; d3].
Proof. eexists _, _, _, _, _, _. split; [split; [vm_compute; reflexivity|split; [vm_compute; reflexivity|reflexivity]]|]. repeat split. Qed.
Print Assumptions C55_refuted_types.

(** Sums of lists are left as objects in an expression, and all of these are equal:
    [lambda a: a + a == a] and [lambda a: a + a + a == a] get one name. *)
Definition dsl_test : pfun := {| f_name := "test"; f_params := ["f"; "g"]; f_type := MCallable [MCallable [m_list m_int] (MInstance "builtins.bool" []); MCallable [m_list m_int] (MInstance "builtins.bool" [])] m_int; f_body := [SOther] |}.
Definition va : pnode := NName "a" (m_list m_int).
Definition lam_test (n m : pnode) : pnode := NLambda ["a"] (MCallable [m_list m_int] (MInstance "builtins.bool" [])) (NCmp [n; m] ["=="]).
Definition lam1 : pnode := lam_test (NOp "+" va va) (NOp "+" va va).
Definition lam2 : pnode := lam_test (NOp "+" (NOp "+" va va) va) (NOp "+" va va).
Definition sol_objects : pfun := {| f_name := "top"; f_params := []; f_type := MCallable [] m_int; f_body := [SReturn (Some (NCall "test" [lam1; lam2] [None; None] m_int))] |}.
Theorem C55_refuted_objects : exists s ds calls d1 d2 d3, solution_of (text [sol_objects]) (cfg_of [dsl_test]) "" s ds calls /\
  s_decls s = [d1; d2; d3] /\ decl_name d1 = decl_name d2 /\
  exists h1 h2, peval true no_fun no_names none_env lam1 = Some (PF h1) /\ peval true no_fun no_names none_env lam2 = Some (PF h2) /\
    h1 [VList [VInt 1]] = Some (VBool true) /\ h2 [VList [VInt 1]] = Some (VBool false).
Proof.
  eexists _, _, _, _, _, _. split; [split; [vm_compute; reflexivity|split; [vm_compute; reflexivity|reflexivity]]|]. split; [reflexivity|]. split; [reflexivity|].
  eexists _, _. split; [reflexivity|]. split; [reflexivity|]. split; reflexivity.
Qed.
Print Assumptions C55_refuted_objects.

(** The name made for a lambda can be that of the solution itself. *)
Definition sol_f0 : pfun := {| f_name := "f_0"; f_params := ["y"]; f_type := MCallable [m_int] m_int;
  f_body := [SReturn (Some (NCall "apply" [NName "y" m_int; inc 1] [None; None] m_int))] |}.
Theorem C55_refuted_clash : exists s ds calls d1 d2, solution_of (text [sol_f0]) (cfg_of [dsl_apply]) "" s ds calls /\
  s_decls s = [d1; d2] /\ decl_name d1 = decl_name d2 /\ eq_expr d1 d2 = Ok false.
Proof. eexists _, _, _, _, _. split; [split; [vm_compute; reflexivity|split; [vm_compute; reflexivity|reflexivity]]|]. repeat split. Qed.
Print Assumptions C55_refuted_clash.
