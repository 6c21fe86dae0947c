(** C37-C40: what the synthesis loops return and when they end. *)

From Coq Require Import String List ZArith Bool Ascii Lia.
From Verif Require Import Ast Semantics Dict IrModel SynthModel SynthProofs.
From Verif Require Import Properties_IR.
Import ListNotations.
Local Open Scope string_scope.
Local Open Scope Z_scope.

(** The answer "unsat" of cvc5: it was not killed by a signal and its first line of
    output is unsat ([begins_with_line text line]: [text] is [line], or [line]
    followed by a newline and more). *)
Definition says_unsat (p : proc) : Prop := 0 <= returncode p /\ begins_with_line (stdout p) "unsat".

(* ------------------------------------------------------------------ *)
(** ** C39: a verification run that did not finish is never taken as a proof *)

(** Whatever the two solvers do: unsat is reported exactly when cvc5 ran and
    answered unsat. *)
Theorem C39_verdict : forall use_rosette racket cvc,
  (verify_synth_result use_rosette racket cvc = Returned "unsat" ->
   exists p, cvc = Returned p /\ says_unsat p) /\
  (forall p, cvc = Returned p -> says_unsat p -> verify_synth_result false racket cvc = Returned "unsat").
Proof.
  intros u r c. split.
  - intros H. apply verify_unsat in H. destruct H as (_ & p & H). exists p. unfold says_unsat. tauto.
  - intros p P S. apply verify_unsat. split; auto. exists p. unfold says_unsat in S. tauto.
Qed.
Print Assumptions C39_verdict.

(** Finding: the Rosette verifier can never answer; the call of [to_rosette]
    lacks three arguments, so a TypeError is raised before anything is run. *)
Theorem C39_rosette_never_answers : forall racket cvc,
  verify_synth_result true racket cvc = Raised OtherExn.
Proof. reflexivity. Qed.
Print Assumptions C39_rosette_never_answers.

Definition line (s : string) : string := s ++ String nl "".

Example C39_cases :
  verify_synth_result false (Raised OtherExn) (Returned {| returncode := 0; stdout := line "unsat" |}) = Returned "unsat" /\
  verify_synth_result false (Raised OtherExn) (Returned {| returncode := -9; stdout := line "unsat" |}) = Returned "SAT/UNKNOWN" /\
  verify_synth_result false (Raised OtherExn) (Returned {| returncode := 1; stdout := line "(error unsat)" |}) = Returned "(error unsat)" /\
  verify_synth_result false (Raised OtherExn) (Returned {| returncode := 0; stdout := line "unknown" ++ line "unsat" |}) = Returned "unknown" /\
  verify_synth_result false (Raised OtherExn) (Returned {| returncode := 0; stdout := "" |}) = Returned "".
Proof. repeat split. Qed.

(* ------------------------------------------------------------------ *)
(** ** C37: only verified candidates are returned *)

(** The Rosette path.  If the loop returns candidates, then they are what some
    solution file said when it was read, and verification was switched off or
    cvc5 answered unsat for exactly these candidates. *)
Theorem C37_rosette : forall a w fuel cs,
  synthesize_rosette a w fuel = Some (Returned (Some cs)) ->
  exists t i text,
    w_file w t (solution_name (a_basename a) i) = Some text /\
    read_solution (w_read w t) (a_names a) (a_funs a) (split_lines text) = Some (Ok cs) /\
    (a_no_verify a = true \/ exists p, w_cvc w t i cs = Returned p /\ says_unsat p).
Proof.
  intros a w fuel cs H. destruct (poll_loop_returned a w _ _ _ _ H) as (t & i & text & _ & _ & F & R & C).
  exists t, i, text. split; [auto|]. split; [auto|]. apply check_unsat in C. unfold says_unsat. tauto.
Qed.
Print Assumptions C37_rosette.

(** It never ends without candidates and without exception. *)
Theorem C37_rosette_not_silent : forall a w fuel, 0 <= a_rounds a ->
  synthesize_rosette a w fuel <> Some (Returned None).
Proof. intros a w fuel H. apply poll_loop_not_none. lia. Qed.
Print Assumptions C37_rosette_not_silent.

(** The SyGuS path ([guessed w t (Some cs)]: [cs] is what the latest line with
    "sygus-candidate" before line [t] was read as). *)
Theorem C37_sygus : forall w fuel cs, synthesize_sygus w fuel = Some (Returned cs) ->
  exists t p, guessed w t (Some cs) /\ g_cvc w t cs = Returned p /\ says_unsat p.
Proof.
  intros w fuel cs H. destruct (sygus_returned w fuel 0 None cs (guessed_0 w) H) as (t & p & G & _ & P & C).
  exists t, p. unfold says_unsat. tauto.
Qed.
Print Assumptions C37_sygus.

(** A run with two rounds: the first candidate is rejected, the second one
    verified; Racket is still running when the second file appears. *)
Definition fun_f : synth_fun :=
  {| sf_name := "f"; sf_grammar := Node KChoose TInt [x_; IntLit 1]; sf_vars := [x_] |}.
Definition demo_args : args :=
  {| a_basename := "b"; a_rounds := 1; a_no_verify := false; a_names := ["f"]; a_funs := [fun_f] |}.
Definition sol_text (d : string) : string := line "#t" ++ line "/b.rkt:1:2" ++ line ("(define (f x) " ++ d ++ ")").
Definition is_var_body (cs : cands) : bool :=
  match cs with [(_, d)] => match fn_body d with Node KVar _ _ => true | _ => false end | _ => false end.
Definition demo_world : world :=
  {| w_poll := fun _ => None;
     w_file := fun t n => if Nat.leb 2 t then
        if String.eqb n "b_sol0" then Some (sol_text "1") else
        if Nat.leb 5 t then if String.eqb n "b_sol1" then Some (sol_text "x") else None else None else None;
     w_read := fun _ _ r => if contains " 1)" r then Ok (IntLit 1) else Ok x_;
     w_cvc := fun _ _ cs => Returned {| returncode := 0; stdout := line (if is_var_body cs then "unsat" else "sat") |};
     w_racket := fun _ _ => Raised OtherExn |}.

Example C37_case :
  synthesize_rosette demo_args demo_world 5 = None /\
  exists cs, synthesize_rosette demo_args demo_world 6 = Some (Returned (Some cs)) /\ is_var_body cs = true.
Proof. split; [reflexivity|]. eexists. split; reflexivity. Qed.

Definition demo_sygus : sygus_world :=
  {| g_line := fun t => match t with O => line "(sygus-candidate (f 1))" | 1%nat => line "(sygus-candidate (f x))"
                                   | 2%nat => line "(" | _ => "" end;
     g_poll := fun _ => None;
     g_read := fun _ l => Ok [("f", {| fn_params := [x_]; fn_body := if contains "1" l then IntLit 1 else x_;
                                       fn_kind := KFnDeclRec; fn_ret := TInt |})];
     g_cvc := fun _ cs => Returned {| returncode := 0; stdout := line (if is_var_body cs then "unsat" else "sat") |} |}.
Example C37_sygus_case : exists cs, synthesize_sygus demo_sygus 3 = Some (Returned cs) /\ is_var_body cs = true.
Proof. eexists. split; reflexivity. Qed.

(* ------------------------------------------------------------------ *)
(** ** C38: synthesis always ends with a verdict *)

(** Full statement (false): if Racket has exited, the loop ends.  When Racket
    exits without writing a solution file (for example because the solver path
    in the generated program does not exist) it goes on for ever. *)
Theorem C38_rosette_refuted : exists a w, 0 <= a_rounds a /\
  (forall t, w_poll w t = Some 1) /\ forall fuel, synthesize_rosette a w fuel = None.
Proof.
  exists demo_args, {| w_poll := fun _ => Some 1; w_file := fun _ _ => None; w_read := fun _ _ _ => Err ExKey;
                       w_cvc := fun _ _ _ => Raised OtherExn; w_racket := fun _ _ => Raised OtherExn |}.
  split; [cbn; lia|]. split; [reflexivity|]. intros fuel. apply hangs; [cbn; lia | reflexivity].
Qed.
Print Assumptions C38_rosette_refuted.

(** Whenever definitions to exclude are given, it does not end: the generated
    program writes one file, under a name that the loop does not look for. *)
Theorem C38_excluded_refuted : forall a w, 0 <= a_rounds a ->
  (forall t f text, w_file w t f = Some text -> In f (solution_files (a_basename a) (a_rounds a) true)) ->
  forall fuel, synthesize_rosette a w fuel = None.
Proof.
  intros a w R F fuel. apply hangs; [lia|]. intros t.
  destruct (w_file w t (solution_name (a_basename a) (-1 + 1))) as [text|] eqn:E; [|reflexivity]. exfalso.
  apply F in E. destruct E as [E|[]]. unfold solution_name in E.
  change (string_of_Z (-1 + 1)) with "0" in E.
  assert (L : forall s, s ++ "_sol" <> s ++ "_sol" ++ "0").
  { induction s as [|c s IH]; [discriminate|]. cbn [append]. intros H. injection H. exact IH. }
  now apply L in E.
Qed.
Print Assumptions C38_excluded_refuted.

(** What holds: if every file that the generated program names appears sooner or
    later, the loop ends with verified candidates, SynthesisFailed or
    VerificationFailed, or because reading a file or writing the SMT problem
    raised. *)
Theorem C38_rosette_partial : forall a w, 0 <= a_rounds a ->
  (forall f, In f (solution_files (a_basename a) (a_rounds a) false) ->
     exists t0, forall t, (t0 <= t)%nat -> w_file w t f <> None) ->
  exists fuel o, synthesize_rosette a w fuel = Some o /\
    ((exists cs, o = Returned (Some cs)) \/ o = Raised SynthesisFailed \/ o = Raised VerificationFailed \/
     exists t i text, w_file w t (solution_name (a_basename a) i) = Some text /\
      ((exists y, read_solution (w_read w t) (a_names a) (a_funs a) (split_lines text) = Some (Err y)) \/
       (exists cs y, read_solution (w_read w t) (a_names a) (a_funs a) (split_lines text) = Some (Ok cs) /\
                     w_cvc w t i cs = Raised y))).
Proof.
  intros a w R F.
  destruct (poll_loop_ends a w) with (d := Z.to_nat (a_rounds a - -1)) (t := 0%nat) (last := -1) as (fuel & o & H); [|auto|lia|].
  - intros i Hi. apply F. unfold solution_files.
    apply in_map_iff. exists (Z.to_nat i). rewrite Z2Nat.id by lia. split; auto. apply in_seq. lia.
  - exists fuel, o. split; [exact H|]. destruct o as [[cs|]|x].
    + left. eauto.
    + exfalso. apply (C37_rosette_not_silent a w fuel R). exact H.
    + right. destruct (poll_loop_raised a w fuel 0 (-1) x) as [->|[->|E]]; auto; lia.
Qed.
Print Assumptions C38_rosette_partial.

Example C38_case : 0 <= a_rounds demo_args /\
  forall f, In f (solution_files (a_basename demo_args) (a_rounds demo_args) false) ->
     exists t0, forall t, (t0 <= t)%nat -> w_file demo_world t f <> None.
Proof.
  split; [cbn; lia|]. intros f IN. exists 5%nat. intros t T. cbn in IN.
  destruct t as [|[|[|[|[|t]]]]]; try lia. destruct IN as [<-|[<-|[]]]; cbn; discriminate.
Qed.

(** SyGuS, full statement (false): cvc5 that ends with exit code 0 and no solution
    makes the loop read the empty string for ever. *)
Theorem C38_sygus_refuted : exists w, (forall t, g_poll w t = Some 0) /\ (forall t, g_line w t = "") /\
  forall fuel, synthesize_sygus w fuel = None.
Proof.
  exists {| g_line := fun _ => ""; g_poll := fun _ => Some 0; g_read := fun _ _ => Err ExKey; g_cvc := fun _ _ => Raised OtherExn |}.
  split; [reflexivity|]. split; [reflexivity|].
  intros fuel. unfold synthesize_sygus. generalize 0%nat.
  induction fuel as [|fuel IH]; intros t; [reflexivity|]. cbn. apply IH.
Qed.
Print Assumptions C38_sygus_refuted.

(** What holds: it ends if some line says fail or opens the solution, or if cvc5 is
    found to have exited with a positive code at a line that is no candidate. *)
Definition decisive (w : sygus_world) (t : nat) : Prop :=
  contains "fail" (g_line w t) = true \/
  contains "sygus-candidate" (g_line w t) = false /\
  (strip (g_line w t) = "(" \/ exists c, g_poll w t = Some c /\ 0 < c).

Theorem C38_sygus_partial : forall w t, decisive w t -> exists fuel o, synthesize_sygus w fuel = Some o.
Proof.
  intros w t D. unfold synthesize_sygus.
  assert (G : forall n s cur, (s + n = t)%nat -> exists fuel o, sygus_loop w fuel s cur = Some o).
  { induction n as [|n IH]; intros s cur E.
    - exists 1%nat. cbn [sygus_loop]. rewrite Nat.add_0_r in E. subst s. destruct D as [->|(-> & [->|(c & -> & C)])]; [eauto| |].
      + destruct (contains "fail" _); [eauto|]. cbn [String.eqb Ascii.eqb Bool.eqb].
        destruct cur; [|eauto]. destruct (verify_synth_result _ _ _); [destruct (String.eqb _ _)|]; eauto.
      + destruct (contains "fail" _); [eauto|]. destruct (String.eqb _ _).
        * destruct cur; [|eauto]. destruct (verify_synth_result _ _ _); [destruct (String.eqb _ _)|]; eauto.
        * apply Z.ltb_lt in C. rewrite C. eauto.
    - assert (NEXT : forall cur', exists fuel o, sygus_loop w fuel (S s) cur' = Some o) by (intros; apply IH; lia).
      assert (ALL : (exists o, forall fuel, sygus_loop w (S fuel) s cur = Some o) \/
                    exists cur', forall fuel, sygus_loop w (S fuel) s cur = sygus_loop w fuel (S s) cur').
      { cbn [sygus_loop]. destruct (contains "fail" _); [left; eauto|].
        destruct (contains "sygus-candidate" _); [destruct (g_read _ _ _); [right|left]; eauto|].
        destruct (String.eqb _ _).
        - left. destruct cur; [|eauto]. destruct (verify_synth_result _ _ _); [destruct (String.eqb _ _)|]; eauto.
        - destruct (g_poll w s) as [c|]; [destruct (0 <? c)|]; eauto. }
      destruct ALL as [(o & A)|(cur' & A)].
      + exists 1%nat, o. apply A.
      + destruct (NEXT cur') as (fuel & o & H). exists (S fuel), o. rewrite A. exact H. }
  apply (G t 0%nat None). lia.
Qed.
Print Assumptions C38_sygus_partial.

Example C38_sygus_case : decisive demo_sygus 2.
Proof. right. split; [reflexivity|]. left. reflexivity. Qed.

(* ------------------------------------------------------------------ *)
(** ** C40: widening the search keeps earlier guarantees *)

(** [verified call at_ cs]: the call of the inner synthesis for the attempt
    returned [cs] and ran with verification. *)
Definition verified (call : attempt -> ran cands) (at_ : attempt) (cs : cands) : Prop :=
  call at_ = Returned cs /\ t_no_verify at_ = false.

(** Full statement (false): a result is always verified, and it comes from the
    strict grammar; the search ends.  With the default arguments the result
    of the first call is returned without verification. *)
Theorem C40_unverified_refuted : forall call emit b hr cs,
  call {| t_relaxed := false; t_bound := b; t_no_verify := true |} = Returned cs -> emit cs = true ->
  search call emit 1 b hr search_no_verify_default =
    Some ([({| t_relaxed := false; t_bound := b; t_no_verify := true |}, Returned cs)], Returned cs).
Proof.
  intros call emit b hr cs H E. cbn [search]. unfold with_bound, search_no_verify_default. rewrite H.
  unfold after. rewrite E. reflexivity.
Qed.
Print Assumptions C40_unverified_refuted.

Definition some_cands : cands :=
  [("f", {| fn_params := [x_]; fn_body := x_; fn_kind := KFnDeclRec; fn_ret := TInt |})].

(** It need not end. *)
Theorem C40_endless_refuted : forall fuel b hr nv,
  search (fun _ => Raised VerificationFailed) (fun _ => true) fuel b hr nv = None.
Proof.
  induction fuel as [|fuel IH]; intros; [reflexivity|]. cbn. rewrite IH. reflexivity.
Qed.
Print Assumptions C40_endless_refuted.

(** What holds for every sequence of outcomes: when the search ends, all calls but
    the last one failed; a result is the result of the last call, which was
    verified unless it was a strict call with verification switched off by the
    caller; the relaxed grammar is used only when allowed and only right after the
    strict one failed; the search goes on after VerificationFailed only, and a
    failed synthesis ends it. *)
Theorem C40_search_partial : forall call emit fuel b has_relaxed no_verify log r,
  search call emit fuel b has_relaxed no_verify = Some (log, r) ->
  exists earlier at_ o, log = (earlier ++ [(at_, o)])%list /\ call at_ = o /\
    Forall (fun x => snd x = Raised SynthesisFailed \/ snd x = Raised VerificationFailed) earlier /\
    Forall (fun x => b <= t_bound (fst x) /\ call (fst x) = snd x /\ (t_relaxed (fst x) = true -> has_relaxed = true)) log /\
    (forall cs, r = Returned cs -> o = Returned cs /\ (verified call at_ cs \/ t_relaxed at_ = false /\ no_verify = true)) /\
    (forall cs, o = Returned cs -> r = if emit cs then Returned cs else Raised OtherExn) /\
    (forall x, o = Raised x -> r = Raised x /\ x <> VerificationFailed).
Proof.
  intros call emit fuel b hr nv log r H.
  destruct (search_log call emit _ _ _ _ _ _ H) as (pre & at_ & o & L & P & A & NV & O).
  assert (LAST : In (at_, o) log) by (rewrite L; apply in_or_app; right; left; reflexivity).
  destruct (A _ LAST) as (A1 & A2 & A3 & A4). cbn [fst snd] in *.
  exists pre, at_, o. split; [auto|]. split; [auto|].
  split; [apply Forall_forall; auto|].
  split; [apply Forall_forall; intros x IN; destruct (A x IN) as (?&?&?&?); auto|].
  split; [|split].
  - intros cs ->. destruct o as [cs'|x]; [|discriminate]. destruct (emit cs'); [|discriminate]. injection O as <-.
    split; auto. unfold verified. destruct (t_relaxed at_) eqn:R; [auto|]. destruct nv; auto.
  - intros cs ->. exact O.
  - intros x ->. split; [exact O|]. intros ->. now apply NV.
Qed.
Print Assumptions C40_search_partial.

(** Together with C37: if the inner calls are runs of the Rosette loop with the
    attempt's verification flag, an outer result obtained with verification on was
    answered unsat by cvc5. *)
Theorem C40_verified_partial : forall (inst : attempt -> args * world * nat) emit fuel b has_relaxed log cs,
  (forall at_, a_no_verify (fst (fst (inst at_))) = t_no_verify at_) ->
  search (fun at_ => match synthesize_rosette (fst (fst (inst at_))) (snd (fst (inst at_))) (snd (inst at_)) with
                     | Some (Returned (Some cs)) => Returned cs
                     | Some (Raised x) => Raised x
                     | _ => Raised OtherExn end) emit fuel b has_relaxed false = Some (log, Returned cs) ->
  exists at_ t i p, w_cvc (snd (fst (inst at_))) t i cs = Returned p /\ says_unsat p.
Proof.
  intros inst emit fuel b hr log cs F H.
  destruct (C40_search_partial _ _ _ _ _ _ _ _ H) as (pre & at_ & o & _ & C & _ & _ & R & _ & _).
  destruct (R cs eq_refl) as (-> & [(V & NV)|(_ & N)]); [|discriminate].
  exists at_. destruct (synthesize_rosette _ _ _) as [[[c|]|x]|] eqn:E; try discriminate.
  assert (c = cs) by congruence. subst c.
  destruct (C37_rosette _ _ _ _ E) as (t & i & text & _ & _ & [N|(p & P)]).
  - rewrite F in N. congruence.
  - exists t, i, p. exact P.
Qed.
Print Assumptions C40_verified_partial.

(** A search that widens the bound once, then uses the relaxed grammar. *)
Example C40_case :
  search (fun at_ => if t_bound at_ =? 2 then Raised VerificationFailed else
                     if t_relaxed at_ then Returned some_cands else Raised SynthesisFailed)
         (fun _ => true) 5 2 true false
  = Some ([({| t_relaxed := false; t_bound := 2; t_no_verify := false |}, Raised VerificationFailed);
           ({| t_relaxed := false; t_bound := 3; t_no_verify := false |}, Raised SynthesisFailed);
           ({| t_relaxed := true; t_bound := 3; t_no_verify := false |}, Returned some_cands)], Returned some_cands).
Proof. reflexivity. Qed.

Example C40_verified_case :
  let inst at_ := ({| a_basename := "b"; a_rounds := 1; a_no_verify := t_no_verify at_; a_names := ["f"]; a_funs := [fun_f] |}, demo_world, 6%nat) in
  (forall at_, a_no_verify (fst (fst (inst at_))) = t_no_verify at_) /\
  exists log cs,
  search (fun at_ => match synthesize_rosette (fst (fst (inst at_))) (snd (fst (inst at_))) (snd (inst at_)) with
                     | Some (Returned (Some cs)) => Returned cs
                     | Some (Raised x) => Raised x
                     | _ => Raised OtherExn end) (fun _ => true) 1 2 true false = Some (log, Returned cs).
Proof. split; [reflexivity|]. do 2 eexists. reflexivity. Qed.
