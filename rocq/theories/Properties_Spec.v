(** C36: specialising higher-order functions preserves meaning. *)

From Coq Require Import String List ZArith Bool Lia.
From Verif Require Import Ast Semantics Dict IrModel IrProofs IrProofs5 TopoModel SpecModel SpecProofs SpecProofs2 SpecProofs3.
From Verif Require Import Properties_IR.
Import ListNotations.
Local Open Scope string_scope.
Local Open Scope list_scope.

(** The full property would be: for every target language, candidates and in-calls on
    which [specialise] succeeds, every candidate computes in the table of the written
    definitions what it computes in the original table.  This is false (below).  The
    three theorems cover the three kinds of steps of [toSMT], each for definitions in
    which function values are used as described by [regular]. *)

(** A definition that calls its one function parameter [p] (or passes it on to itself,
    in the same place), for any number of other parameters: the copy made for the
    function [g] computes the same, in every table [T'] that contains the copy besides
    the definitions of [T]. *)
Theorem C36_copy_partial : forall base T T' t f g d p ts pre post s,
  extends base T T' -> dget T f = Some d -> declares t f d ->
  fn_params d = pre ++ mkVar p (TFn ts) :: post -> Forall (plain_param p) pre -> Forall (plain_param p) post ->
  wf (fn_body d) ->
  regular (fun x => x = p) (fun h => h <> f) (fun h n q => h = f /\ n = List.length pre /\ q = p) (fun q => q = p) (fn_body d) ->
  exists s' t' d', spec_direct t s (f, g) = Ok s' /\ s_decls s' = s_decls s ++ [t'] /\
    s_renamed s' = pset (s_renamed s) (f, g) (f ++ "_" ++ g)%string /\
    declares t' (f ++ "_" ++ g) d' /\
    (dget T' (f ++ "_" ++ g) = Some d' ->
     forall n a b v, List.length a = List.length pre ->
       table_call base T n f (a ++ VFn g :: b) = Some v -> table_call base T' n (f ++ "_" ++ g) (a ++ b) = Some v).
Proof. exact spec_direct_ok. Qed.
Print Assumptions C36_copy_partial.

(** A definition that passes its one function parameter to [fn] (already specialised
    to [fn']) or to itself. *)
Theorem C36_caller_partial : forall base T T' t f g d p ts pre post fn fn' fpos s,
  extends base T T' -> dget T f = Some d -> declares t f d -> calls_directly t fn = true ->
  (forall n a b v, List.length a = fpos ->
     table_call base T n fn (a ++ VFn g :: b) = Some v -> table_call base T' n fn' (a ++ b) = Some v) ->
  fn <> f -> fn' <> f ->
  fn_params d = pre ++ mkVar p (TFn ts) :: post -> Forall (plain_param p) pre -> Forall (plain_param p) post ->
  wf (fn_body d) ->
  regular (fun x => x = p) (fun h => h <> fn /\ h <> f)
    (fun h n q => (h = fn /\ n = fpos \/ h = f /\ n = List.length pre) /\ q = p) no_cv (fn_body d) ->
  exists s' t' d', spec_caller fn g (s, fn') t = Ok (s', (f ++ "_" ++ fn')%string) /\ s_decls s' = s_decls s ++ [t'] /\
    s_renamed s' = pset (s_renamed s) (f, g) (f ++ "_" ++ fn')%string /\
    declares t' (f ++ "_" ++ fn') d' /\
    (dget T' (f ++ "_" ++ fn') = Some d' ->
     forall n a b v, List.length a = List.length pre ->
       table_call base T n f (a ++ VFn g :: b) = Some v -> table_call base T' n (f ++ "_" ++ fn') (a ++ b) = Some v).
Proof. exact spec_caller_ok. Qed.
Print Assumptions C36_caller_partial.

Lemma final_name_in : forall renamed f g new, NoDup (map fst renamed) ->
  (forall n, In n (map snd renamed) -> ~ In n (map (fun e => fst (fst e)) renamed)) ->
  In ((f, g), new) renamed -> final_name renamed f g = new.
Proof.
  assert (STAY : forall renamed h q, ~ In (h, q) (map fst renamed) -> final_name renamed h q = h).
  { induction renamed as [|[[f g] new] L IH]; cbn; intros h q NI; [reflexivity|].
    destruct (String.eqb h f && String.eqb q g) eqn:E; [|apply IH; tauto].
    apply andb_true_iff in E. destruct E as [E1 E2]. apply String.eqb_eq in E1. apply String.eqb_eq in E2. subst. tauto. }
  induction renamed as [|[[f0 g0] new0] L IH]; cbn [map fst snd In]; intros f g new ND NEW IN; [destruct IN|].
  inversion ND as [|? ? NI ND']; subst. cbn [final_name]. destruct IN as [IN|IN].
  - injection IN as -> -> ->. rewrite !String.eqb_refl. cbn [andb]. apply STAY. intros X.
    apply (NEW new); [now left|]. right. apply in_map_iff in X. destruct X as ([[a b] c] & X & X').
    cbn in X. injection X as -> ->. apply in_map_iff. exists ((new, g), c). auto.
  - destruct (String.eqb f f0 && String.eqb g g0) eqn:E.
    + apply andb_true_iff in E. destruct E as [E1 E2]. apply String.eqb_eq in E1. apply String.eqb_eq in E2. subst.
      destruct NI. apply in_map_iff. now exists ((f0, g0), new).
    + apply IH; auto. intros n Hn X. apply (NEW n); auto.
Qed.

(** A synthesized body: the calls listed in [renamed] are renamed and lose their
    function argument.  [pos f] is the position of the function parameter of [f]; [P]
    are the names standing for functions. *)
Theorem C36_candidate_partial : forall base T T' renamed pos e,
  extends base T T' ->
  NoDup (map fst renamed) -> NoDup (map snd renamed) ->
  (forall n, In n (map snd renamed) -> ~ In n (map (fun r => fst (fst r)) renamed)) ->
  (forall f g new, In ((f, g), new) renamed -> forall n a b v, List.length a = pos f ->
     table_call base T n f (a ++ VFn g :: b) = Some v -> table_call base T' n new (a ++ b) = Some v) ->
  wf e ->
  let P := fun q => In q (map (fun r => snd (fst r)) renamed) in
  regular P (fun h => ~ In h (map snd renamed)) (fun h n q => In (h, q) (map fst renamed) /\ n = pos h) no_cv e ->
  exists e' e'', rename_calls renamed e = Ok e' /\ filter_fn_args e' = Ok e'' /\
    forall n r r' v, (forall q, P q -> r q = Some (VFn q)) -> (forall x, ~ P x -> r x = r' x) ->
      eval (table_interp base T n) r e = Some v -> eval (table_interp base T' n) r' e'' = Some v.
Proof.
  intros base T T' renamed pos e X ND1 ND2 NEW CK W P R.
  destruct (cand_sound P (fun h => ~ In h (map snd renamed)) (fun q => q) renamed ND2) with
    (HO := fun h n q => In (h, q) (map fst renamed) /\ n = pos h) (e := e) as (e' & e'' & F & FF & V); auto.
  { intros n Hn m q [Y _]. apply (NEW n Hn). apply in_map_iff in Y. destruct Y as ([[a b] c] & Y & Y').
    cbn in Y. injection Y as -> ->. apply in_map_iff. exists ((n, q), c). auto. }
  exists e', e''. repeat split; auto. intros n r r' v RP RN E.
  destruct (extends_le base T T' n X) as (XD & XM & XC).
  apply (V (table_interp base T n) (table_interp base T' n)) with (r := r); auto.
  - intros h q a b w [Y L] C. apply in_map_iff in Y. destruct Y as ([[f g] c] & Y & Y'). cbn in Y. injection Y as -> ->.
    rewrite (final_name_in renamed h q c); auto. eapply CK; eauto.
  - split; auto.
Qed.
Print Assumptions C36_candidate_partial.

(* ------------------------------------------------------------------ *)
(** ** a case: twice(n, p) = 2 * total(n, p), total(n, p) = p(1) + .. + p(n), candidate c(x) = twice(x, sq) + 1 *)

Definition get (r : res expr) : expr := match r with Ok e => e | Err _ => Atom PNone end.
Definition tp : ty := TFn [TInt; TInt].
Definition Pv := mkVar "p" tp.
Definition Callp (a : expr) : expr := get (mkCallValue [Pv; a]).
Definition Fn1 (n : string) (body : expr) (ps : list expr) : expr := get (mkFn KFnDeclRec (Atom (PStr n)) TInt body ps).
Definition n_ := mkVar "n" TInt.
Definition Le2 a b := get (mkCmp KLe [a; b]).
Definition Sub2 a b := get (mkArith2 KSub [a; b]).
Definition Mul2 a b := get (mkArithN KMul [a; b]).
Definition LitZ z := mkLit (PInt z) TInt.
Definition total_body : expr :=
  Ite3 (Le2 n_ (LitZ 0)) (LitZ 0) (Add2 (Callp n_) (CallI "total" [Sub2 n_ (LitZ 1); Pv])).
Definition total_decl := Fn1 "total" total_body [n_; Pv].
Definition twice_body : expr := Mul2 (LitZ 2) (CallI "total" [n_; Pv]).
Definition twice_decl := Fn1 "twice" twice_body [n_; Pv].
Definition sq_decl := Fn1 "sq" (Mul2 x_ x_) [x_].
Definition c_body : expr := Add2 (CallI "twice" [x_; mkVar "sq" tp]) (LitZ 1).
Definition c_decl := Fn1 "c" c_body [x_].

Definition table (ds : list expr) : dict fndef :=
  flat_map (fun d => match entry d with Some p => [p] | None => [] end) ds.

(** every definition of a script *)
Definition all_decls (s : smt_script) : list expr := o_plain s ++ o_early s ++ o_copies s ++ o_cands s.

(** the function [f] in the original program, and in the script made of it *)
Definition run (ds : list expr) (n : nat) (f : string) (vs : list val) : option val := table_call I0 (table ds) n f vs.
Definition run_script (lang cands : list expr) (n : nat) (f : string) (vs : list val) : res (option val) :=
  s <- verify_script 9 lang cands ;; Ok (run (all_decls s) n f vs).

(* the candidate also calls total directly, so that both functions get copies *)
Definition c2_body : expr := Add2 (CallI "twice" [x_; mkVar "sq" tp]) (CallI "total" [x_; mkVar "sq" tp]).
Definition c2_decl := Fn1 "c2" c2_body [x_].
Definition lang : list expr := [total_decl; twice_decl].
Definition c2_env (x : Z) : env := upd (upd (fun _ => None) "x" (VInt x)) "sq" (VFn "sq").

Definition T0 : dict fndef := table (lang ++ [sq_decl]).
Definition copies : list expr := match verify_script 9 lang [sq_decl; c2_decl] with Ok s => o_copies s | Err _ => [] end.
Definition T1 : dict fndef := table (lang ++ [sq_decl] ++ copies).

Ltac side := cbn; try solve [intuition congruence | auto | left; reflexivity | intros X; cbn in X; intuition discriminate].
Ltac reg :=
  cbn; unfold mkVar;
  match goal with
  | |- regular _ _ _ _ (Node KLit _ _) => apply reg_lit
  | |- regular _ _ _ _ (Node KVar _ _) => apply reg_var; side
  | |- regular _ _ _ _ (Node KCallValue _ (Node KVar (TFn ?ts) [Atom (PStr ?q)] :: ?l)) =>
      apply (reg_cv _ _ _ _ _ q ts l); [side|side|]; reg
  | |- regular ?P ?FO ?HO ?CV (Node KCall ?t [Atom (PStr ?f); ?a; Node KVar (TFn ?ts) [Atom (PStr ?q)]]) =>
      apply (reg_ho P FO HO CV KCall t f [a] q ts []); [side|side|side|reg|reg]
  | |- regular _ _ _ _ (Node KCall _ _) => apply reg_fo; [side|side|reg]
  | |- regular _ _ _ _ (Node _ _ _) => apply reg_op; [reflexivity|reg]
  | |- Forall _ [] => constructor
  | |- Forall _ (_ :: _) => constructor; [reg|reg]
  | |- plain_arg _ _ _ _ _ => eapply plain_intro; [reg|reflexivity|reflexivity]
  end.

Ltac regs := match goal with |- regular ?P ?FO ?HO ?CV ?e => let e' := eval vm_compute in e in change (regular P FO HO CV e') end; reg.

Lemma total_regular : regular (fun x => x = "p") (fun h => h <> "total")
  (fun h n q => h = "total" /\ n = 1 /\ q = "p") (fun q => q = "p") total_body.
Proof. regs. Qed.
Lemma twice_regular : regular (fun x => x = "p") (fun h => h <> "total" /\ h <> "twice")
  (fun h n q => (h = "total" /\ n = 1 \/ h = "twice" /\ n = 1) /\ q = "p") no_cv twice_body.
Proof. regs. Qed.
Lemma total_wf : wf total_body.
Proof.
  wf_tac. constructor; [|constructor; [wf_tac|constructor]]. eapply wf_CallValue with (args := [Pv; n_]); [wf_list|reflexivity].
Qed.
Lemma twice_wf : wf twice_body. Proof. wf_tac. Qed.
Lemma c2_wf : wf c2_body. Proof. wf_tac. Qed.

Lemma T_extends : extends I0 T0 T1.
Proof.
  split.
  - intros f d. unfold T0, T1, dget. cbn - [String.eqb copies]. 
    repeat match goal with |- context [String.eqb ?a ?b] => destruct (String.eqb a b) end; auto; discriminate.
  - intros f _ _ vs. reflexivity.
Qed.

Definition renamed2 : list ((string * string) * string) := [(("total", "sq"), "total_sq"); (("twice", "sq"), "twice_total_sq")].

(** total and its caller, by the theorems above *)
Lemma total_copy : forall n a b v, List.length a = 1 ->
  table_call I0 T0 n "total" (a ++ VFn "sq" :: b) = Some v -> table_call I0 T1 n "total_sq" (a ++ b) = Some v.
Proof.
  destruct (C36_copy_partial I0 T0 T1 total_decl "total" "sq" {| fn_params := [n_; Pv]; fn_body := total_body; fn_kind := KFnDeclRec; fn_ret := TInt |}
    "p" [TInt; TInt] [n_] [] spec_init T_extends) as (s' & t' & d' & E & DS & _ & DC & C); try reflexivity.
  - split; reflexivity.
  - repeat constructor. exists "n", TInt. repeat split; discriminate.
  - constructor.
  - exact total_wf.
  - exact total_regular.
  - vm_compute in E. injection E as <-. cbn in DS. injection DS as <-. destruct DC as [DC _]. vm_compute in DC. injection DC as <-.
    apply C. reflexivity.
Qed.

Lemma twice_copy : forall n a b v, List.length a = 1 ->
  table_call I0 T0 n "twice" (a ++ VFn "sq" :: b) = Some v -> table_call I0 T1 n "twice_total_sq" (a ++ b) = Some v.
Proof.
  destruct (C36_caller_partial I0 T0 T1 twice_decl "twice" "sq" {| fn_params := [n_; Pv]; fn_body := twice_body; fn_kind := KFnDeclRec; fn_ret := TInt |}
    "p" [TInt; TInt] [n_] [] "total" "total_sq" 1 spec_init T_extends) as (s' & t' & d' & E & DS & _ & DC & C); try reflexivity; try discriminate.
  - split; reflexivity.
  - exact total_copy.
  - repeat constructor. exists "n", TInt. repeat split; discriminate.
  - constructor.
  - exact twice_wf.
  - exact twice_regular.
  - vm_compute in E. injection E as <-. cbn in DS. injection DS as <-. destruct DC as [DC _]. vm_compute in DC. injection DC as <-.
    apply C. reflexivity.
Qed.

(** The candidate c2(x) = twice(x, sq) + total(x, sq), for every input: the script the
    whole pipeline writes for it computes what the original does. *)
Example C36_case : exists e', match verify_script 9 lang [sq_decl; c2_decl] with
                              | Ok s => o_cands s = [Fn1 "c2" e' [x_]] /\ o_copies s = copies
                              | Err _ => False end /\
  forall n x v, eval (table_interp I0 T0 n) (c2_env x) c2_body = Some v ->
    eval (table_interp I0 T1 n) (upd (fun _ => None) "x" (VInt x)) e' = Some v.
Proof.
  destruct (C36_candidate_partial I0 T0 T1 renamed2 (fun _ => 1) c2_body T_extends) as (e1 & e2 & F & FF & V).
  - repeat constructor; cbn; intuition congruence.
  - repeat constructor; cbn; intuition congruence.
  - cbn. intros m [<-|[<-|[]]]; intuition congruence.
  - intros f g new [X|[X|[]]]; injection X as <- <- <-; [exact total_copy|exact twice_copy].
  - exact c2_wf.
  - regs.
  - vm_compute in F. injection F as <-. vm_compute in FF. injection FF as <-.
    eexists. split; [vm_compute; split; reflexivity|]. intros n x v E. apply (V n (c2_env x)); auto.
    + intros q [<-|[<-|[]]]; reflexivity.
    + intros y Y. cbn in Y. unfold c2_env, upd. destruct (String.eqb "sq" y) eqn:Q; [apply String.eqb_eq in Q; tauto|reflexivity].
Qed.
Example C36_case_values :
  eval (table_interp I0 T0 9) (c2_env 3) c2_body = Some (VInt 42) /\
  run_script lang [sq_decl; c2_decl] 9 "c2" [VInt 3] = Ok (Some (VInt 42)).
Proof. split; reflexivity. Qed.

(* ------------------------------------------------------------------ *)
(** ** what does not hold *)

(** Two functions that pass their parameter to [total]: the copy of the second one
    calls the copy of the first one instead of [total_sq], because the loop variable
    [new_fn_name] is overwritten (smt_util.py:432). *)
Definition plus1_decl := Fn1 "plus1" (Add2 (CallI "total" [n_; Pv]) (LitZ 1)) [n_; Pv].
Definition lang3 : list expr := [total_decl; twice_decl; plus1_decl].
Definition sqv := mkVar "sq" tp.
Definition c3_body : expr := Add2 (CallI "plus1" [x_; sqv]) (Add2 (CallI "twice" [x_; sqv]) (CallI "total" [x_; sqv])).
Definition c3_decl := Fn1 "c3" c3_body [x_].
Theorem C36_two_callers_refuted :
  eval (table_interp I0 (table (lang3 ++ [sq_decl])) 9) (c2_env 3) c3_body = Some (VInt 57) /\
  run_script lang3 [sq_decl; c3_decl] 9 "c3" [VInt 3] = Ok (Some (VInt 71)).
Proof. split; reflexivity. Qed.
Print Assumptions C36_two_callers_refuted.

(** A function of two function parameters: both are replaced by the same function. *)
Definition Qv := mkVar "q" tp.
Definition diff_decl := Fn1 "diff" (Sub2 (Callp n_) (get (mkCallValue [Qv; n_]))) [n_; Pv; Qv].
Definition id_decl := Fn1 "ident" x_ [x_].
Definition c4_body : expr := CallI "diff" [x_; sqv; mkVar "ident" tp].
Definition c4_decl := Fn1 "c4" c4_body [x_].
Definition c4_env (x : Z) : env := upd (upd (upd (fun _ => None) "x" (VInt x)) "sq" (VFn "sq")) "ident" (VFn "ident").
Theorem C36_two_parameters_refuted :
  eval (table_interp I0 (table [diff_decl; sq_decl; id_decl]) 9) (c4_env 3) c4_body = Some (VInt 6) /\
  run_script [diff_decl] [sq_decl; id_decl; c4_decl] 9 "c4" [VInt 3] = Ok (Some (VInt 0)).
Proof. split; reflexivity. Qed.
Print Assumptions C36_two_parameters_refuted.

(** A candidate that calls only [twice]: that [total] is also called with [sq] is not
    noticed (contrary to the comment of [get_direct_in_calls]), nothing is specialised,
    and the candidate calls [twice] with one argument too few. *)
Theorem C36_indirect_refuted :
  eval (table_interp I0 T0 9) (c2_env 3) c_body = Some (VInt 29) /\
  run_script lang [sq_decl; c_decl] 9 "c" [VInt 3] = Ok None /\
  exists s, verify_script 9 lang [sq_decl; c_decl] = Ok s /\ o_copies s = [] /\
    o_cands s = [sq_decl; Fn1 "c" (Add2 (CallI "twice" [x_]) (LitZ 1)) [x_]].
Proof. split; [reflexivity|]. split; [reflexivity|]. eexists. vm_compute. repeat split. Qed.
Print Assumptions C36_indirect_refuted.
