(** C44: solutions of the SyGuS solver are read back faithfully. *)

From Coq Require Import String Ascii List ZArith Bool Lia.
From Verif Require Import Ast Semantics Dict UtilProofs SynthModel SexpModel SexpProofs SmtText SmtMeaning RosPrint RosText RosProofs SygRead SygText SygProofs.
Import ListNotations.
Local Open Scope string_scope.
Local Open Scope list_scope.

(** Full statement (false): for every term.  Missing: [let] with several bindings and
    sets with several inserted elements, see the counterexamples below.

    The expression that is read from a term has the value of the term, in every
    interpretation in which the functions of the IR and of SMT-LIB are the same. *)
Theorem C44_value_partial fn F V I J r s e v :
  same_functions fn I J -> fun_names fn F -> var_names fn V -> vars_only fn r ->
  term fn s = true -> syg_expr F V [] s = Ok e ->
  sval I J r s = Some v -> eval I r e = Some v.
Proof.
  intros A NF NV VO T E S0. apply (good_all fn F V I J A NF NV r (S (ssize s)) s (Nat.lt_succ_diag_r _) [] r e v T); auto.
  split; [exact VO|]. intros x. reflexivity.
Qed.
Print Assumptions C44_value_partial.

(** Every well-sorted term whose operators have two operands is read, and its expression
    has the sort of the term. *)
Theorem C44_reads_partial fn F V s t :
  fun_names fn F -> sorted F V s t -> exists e, syg_expr F V [] s = Ok e /\ type_of e = Ok t.
Proof.
  intros NF S0. apply (sorted_read F V V s t).
  - intros f u D. split; [reflexivity|]. exact (proj2 (NF f u D)).
  - exact S0.
  - intros x u D. exact D.
Qed.
Print Assumptions C44_reads_partial.

(** ** a line with candidates *)
Definition var_types (vs : list expr) : dict ty := fold_left (fun d v => dset d (name_of v) (ty_of v)) vs [].
Definition is_variable (e : expr) : Prop := exists x t, e = mkVar x t.
(** the definition of a function *)
Definition declare (ce : synth_fun) (e : expr) : expr :=
  Node KFnDeclRec (TFn (ty_of (sf_grammar ce) :: map ty_of (sf_vars ce))) (Atom (PStr (sf_name ce)) :: e :: sf_vars ce).
Definition pair_tree (p : string * sexp) : sexp := SL [SA (fst p); snd p].

Lemma var_types_ok vs : Forall is_variable vs -> forall d,
  (fix go (vs : list expr) (d : dict ty) : res (dict ty) :=
     match vs with
     | [] => Ok d
     | Node _ t (Atom (PStr x) :: _) :: vs => go vs (dset d x t)
     | _ => Err ExAttr
     end) vs d = Ok (fold_left (fun d v => dset d (name_of v) (ty_of v)) vs d).
Proof. induction 1 as [|v vs [x [t ->]] Fv IH]; intros d; [reflexivity|]. cbn [fold_left mkVar name_of ty_of]. apply IH. Qed.
Lemma vars_types vs : Forall is_variable vs -> mapR type_of vs = Ok (map ty_of vs).
Proof. induction 1 as [|v vs [x [t ->]] Fv IH]; [reflexivity|]. cbn [mapR mkVar type_of bindR]. rewrite IH. reflexivity. Qed.

Lemma one_candidate F ce n b e acc : Forall is_variable (sf_vars ce) -> (exists k t l, sf_grammar ce = Node k t l) ->
  syg_expr F (var_types (sf_vars ce)) [] b = Ok e ->
  syg_candidate F ce (pair_tree (n, b)) acc = Ok (fst acc ++ [declare ce e], dset (snd acc) n e).
Proof.
  intros FV [k [t [l G]]] E. unfold syg_candidate. rewrite (var_types_ok _ FV []). cbn [bindR]. unfold pair_tree, item. cbn [nth_error fst snd bindR].
  unfold var_types in E. rewrite E. cbn [bindR]. unfold declare. rewrite G. cbn [type_of bindR ty_of]. unfold mkFn. rewrite (vars_types _ FV). reflexivity.
Qed.

Lemma round_candidates F ce ps b e : NoDup (map fst ps) -> In (sf_name ce, b) ps -> (forall p, In p ps -> snd p <> SA (sf_name ce)) ->
  Forall is_variable (sf_vars ce) -> (exists k t l, sf_grammar ce = Node k t l) -> syg_expr F (var_types (sf_vars ce)) [] b = Ok e ->
  forall acc, syg_round F ce (map pair_tree ps) (Ok acc) = Ok (fst acc ++ [declare ce e], dset (snd acc) (sf_name ce) e).
Proof.
  intros N I0 B FV G E.
  assert (X : forall p, In p ps -> name_in (sf_name ce) (pair_tree p) = String.eqb (sf_name ce) (fst p)).
  { intros [n c] Ip. cbn [pair_tree name_in existsb fst snd]. specialize (B _ Ip). cbn [snd] in B. destruct c as [w|]; [|rewrite orb_false_r; reflexivity].
    destruct (String.eqb_spec (sf_name ce) w); [subst; congruence|]. rewrite orb_false_r. reflexivity. }
  clear B. unfold syg_round.
  assert (Z : forall qs, (forall p, In p qs -> In p ps) -> ~ In (sf_name ce) (map fst qs) -> forall acc,
            fold_left (fun acc a => if name_in (sf_name ce) a then p <- acc ;; syg_candidate F ce a p else acc) (map pair_tree qs) (Ok acc) = Ok acc).
  { induction qs as [|q qs IH]; intros S0 N0 acc; [reflexivity|]. cbn [map fold_left]. rewrite (X q (S0 q (or_introl eq_refl))).
    destruct (String.eqb_spec (sf_name ce) (fst q)); [exfalso; apply N0; left; symmetry; assumption|].
    apply IH; [intros; apply S0; right; assumption|intros H; apply N0; right; exact H]. }
  intros acc. apply in_split in I0. destruct I0 as [l1 [l2 ->]]. rewrite map_app in N. cbn [map fst] in N.
  rewrite map_app, fold_left_app. rewrite Z.
  - cbn [map fold_left]. rewrite X by (apply in_elt). cbn [fst]. rewrite String.eqb_refl. cbn [bindR].
    rewrite (one_candidate F ce (sf_name ce) b e acc FV G E).
    apply Z; [intros; apply in_or_app; right; right; assumption|]. intros H. apply NoDup_remove_2 in N. apply N. apply in_or_app. auto.
  - intros; apply in_or_app; auto.
  - intros H. apply NoDup_remove_2 in N. apply N. apply in_or_app. auto.
Qed.

(** From a line "(sygus-candidate (name term) ...)", laid out in any way, every function
    to synthesize gets a definition with the value of its term.

    Missing for the full statement, besides the above: a function whose name is part of
    the word "sygus-candidate" or is itself the solution of another function. *)
Theorem C44_line_partial fn F ces ps line :
  fun_names fn F -> tokens line = toks (SL (SA "sygus-candidate" :: map pair_tree ps)) -> NoDup (map fst ps) ->
  Forall (fun ce =>
    contains (sf_name ce) "sygus-candidate" = false /\ (forall p, In p ps -> snd p <> SA (sf_name ce)) /\
    Forall is_variable (sf_vars ce) /\ var_names fn (var_types (sf_vars ce)) /\ (exists k t l, sf_grammar ce = Node k t l) /\
    exists b t, In (sf_name ce, b) ps /\ term fn b = true /\ sorted F (var_types (sf_vars ce)) b t) ces ->
  exists ds d, generate_candidates F ces line = Ok (ds, d) /\
    Forall2 (fun ce dcl => exists b e, dcl = declare ce e /\ In (sf_name ce, b) ps /\
      forall I J r v, same_functions fn I J -> vars_only fn r -> sval I J r b = Some v -> eval I r e = Some v) ces ds.
Proof.
  intros NF T N H. unfold generate_candidates, generate_ast. rewrite T.
  pose proof (parse_lists false [SL (SA "sygus-candidate" :: map pair_tree ps)] [] eq_refl) as Q.
  cbn [flat_map] in Q. rewrite app_nil_r in Q. rewrite Q. cbn [rev app]. clear T Q.
  set (items := SA "sygus-candidate" :: map pair_tree ps).
  assert (G : forall acc, exists ds d, fold_left (fun acc ce => syg_round F ce items acc) ces (Ok acc) = Ok (fst acc ++ ds, d) /\
    Forall2 (fun ce dcl => exists b e, dcl = declare ce e /\ In (sf_name ce, b) ps /\
      forall I J r v, same_functions fn I J -> vars_only fn r -> sval I J r b = Some v -> eval I r e = Some v) ces ds).
  { induction H as [|ce ces [C [B [FV [NV [G [b [t [Ib [Tb Sb]]]]]]]]] Fc IH]; intros acc.
    - exists [], (snd acc). cbn. rewrite app_nil_r. destruct acc. split; [reflexivity|constructor].
    - destruct (C44_reads_partial fn F _ b t NF Sb) as [e [E _]].
      cbn [fold_left]. unfold syg_round at 2. unfold items at 2. cbn [fold_left].
      assert (Z : name_in (sf_name ce) (SA "sygus-candidate") = false) by exact C. rewrite Z.
      fold (syg_round F ce (map pair_tree ps) (Ok acc)). rewrite (round_candidates F ce ps b e N Ib B FV G E acc).
      destruct (IH (fst acc ++ [declare ce e], dset (snd acc) (sf_name ce) e)) as [ds [d [E2 F2]]].
      exists (declare ce e :: ds), d. rewrite E2. cbn [fst]. rewrite <- app_assoc. split; [reflexivity|]. constructor; [|exact F2].
      exists b, e. split; [reflexivity|]. split; [exact Ib|]. intros I J r v A VO. apply (C44_value_partial fn F _ I J r b e v A NF NV VO Tb E). }
  destruct (G ([], [])) as [ds [d [E F2]]]. exists ds, d. split; [exact E|exact F2].
Qed.
Print Assumptions C44_line_partial.

(** ** a case that meets the hypotheses *)
Definition fnames (f : string) : bool := smem f ["inv0"; "ps"; "g"].
Definition funs : dict ty := [("g", TFn [TInt; TInt; TInt])].
Definition x_ := mkVar "x" TInt.
Definition y_ := mkVar "y" TInt.
Definition ce1 : synth_fun := {| sf_name := "inv0"; sf_grammar := BoolLit true; sf_vars := [x_; y_] |}.
Definition ce2 : synth_fun := {| sf_name := "ps"; sf_grammar := IntLit 0; sf_vars := [x_] |}.
Definition line : string :=
  "(sygus-candidate (ps (let ((_let_0 (- 3))) (ite (<= x _let_0) (g x _let_0) (* 2 x)))) (inv0 (and (>= x 0) (= (+ x y) (- 1)))))".
Definition body1 : sexp := SL [SA "and"; SL [SA ">="; SA "x"; SA "0"]; SL [SA "="; SL [SA "+"; SA "x"; SA "y"]; SL [SA "-"; SA "1"]]].
Definition body2 : sexp :=
  SL [SA "let"; SL [SL [SA "_let_0"; SL [SA "-"; SA "3"]]];
      SL [SA "ite"; SL [SA "<="; SA "x"; SA "_let_0"]; SL [SA "g"; SA "x"; SA "_let_0"]; SL [SA "*"; SA "2"; SA "x"]]].

Example C44_example :
  exists ds d, generate_candidates funs [ce1; ce2] line = Ok (ds, d) /\
    Forall2 (fun ce dcl => exists b e, dcl = declare ce e /\ In (sf_name ce, b) [("ps", body2); ("inv0", body1)] /\
      forall I J r v, same_functions fnames I J -> vars_only fnames r -> sval I J r b = Some v -> eval I r e = Some v) [ce1; ce2] ds.
Proof.
  assert (FN : fun_names fnames funs).
  { intros f t. unfold funs. cbn [dget]. destruct (String.eqb_spec f "g") as [-> |]; [split; reflexivity|discriminate]. }
  assert (VN : forall vs, incl vs [x_; y_] -> var_names fnames (var_types vs)).
  { intros vs Hvs x t. unfold var_types. cut (forall d, (forall u, dget d x = Some u -> fnames x = false /\ var_name x = true) ->
      dget (fold_left (fun d v => dset d (name_of v) (ty_of v)) vs d) x = Some t -> fnames x = false /\ var_name x = true).
    { intros H. apply H. discriminate. }
    revert Hvs. induction vs as [|v vs IH]; intros Hvs d Hd; cbn [fold_left]; [apply Hd|].
    apply IH; [intros z Hz; apply Hvs; right; exact Hz|]. intros u. rewrite dget_dset. destruct (String.eqb_spec x (name_of v)) as [-> |]; [|apply Hd].
    destruct (Hvs v (or_introl eq_refl)) as [<-|[<-|[]]]; split; reflexivity. }
  apply (C44_line_partial fnames funs [ce1; ce2] [("ps", body2); ("inv0", body1)] line FN).
  - vm_compute. reflexivity.
  - constructor; [intros [E|[]]; discriminate E|]. constructor; [intros []|constructor].
  - constructor; [|constructor; [|constructor]].
    + split; [reflexivity|]. split; [intros p [<-|[<-|[]]]; discriminate|]. split; [repeat constructor; unfold is_variable; repeat eexists|].
      split; [apply VN; intros z Hz; exact Hz|]. split; [repeat eexists|]. exists body1, TBool. split; [right; left; reflexivity|]. split; [reflexivity|].
      apply so_bool; [cbn; tauto| |].
      * apply so_cmp; [cbn; tauto|apply so_var; reflexivity|exact (so_num _ _ "0" 0%Z eq_refl)].
      * apply (so_eq _ _ _ _ TInt); [apply so_arith; [cbn; tauto|apply so_var; reflexivity|apply so_var; reflexivity]|apply so_neg; exact (so_num _ _ "1" 1%Z eq_refl)].
    + split; [reflexivity|]. split; [intros p [<-|[<-|[]]]; discriminate|]. split; [repeat constructor; unfold is_variable; repeat eexists|].
      split; [apply VN; intros z [<-|[]]; left; reflexivity|]. split; [repeat eexists|]. exists body2, TInt. split; [left; reflexivity|]. split; [reflexivity|].
      apply (so_let _ _ _ _ _ TInt); [reflexivity|apply so_neg; exact (so_num _ _ "3" 3%Z eq_refl)|].
      apply so_ite.
      * apply so_cmp; [cbn; tauto|apply so_var; reflexivity|apply so_var; reflexivity].
      * apply (so_call _ _ _ _ TInt [TInt; TInt]); [reflexivity|reflexivity|]. repeat constructor; reflexivity.
      * apply so_arith; [cbn; tauto|exact (so_num _ _ "2" 2%Z eq_refl)|apply so_var; reflexivity].
Qed.
Print Assumptions C44_example.
(** what is read *)
Example C44_example_read :
  generate_candidates funs [ce1; ce2] line =
  Ok ([ declare ce1 (Node KAnd TBool [Node KGe TBool [x_; IntLit 0]; Node KEq TBool [Node KAdd TInt [x_; y_]; Node KSub TInt [IntLit 0; IntLit 1]]]);
        declare ce2 (Node KIte TInt [Node KLe TBool [x_; Node KSub TInt [IntLit 0; IntLit 3]];
                                     Node KCall TInt [Atom (PStr "g"); x_; Node KSub TInt [IntLit 0; IntLit 3]];
                                     Node KMul TInt [IntLit 2; x_]]) ],
      [("inv0", Node KAnd TBool [Node KGe TBool [x_; IntLit 0]; Node KEq TBool [Node KAdd TInt [x_; y_]; Node KSub TInt [IntLit 0; IntLit 1]]]);
       ("ps", Node KIte TInt [Node KLe TBool [x_; Node KSub TInt [IntLit 0; IntLit 3]];
                              Node KCall TInt [Atom (PStr "g"); x_; Node KSub TInt [IntLit 0; IntLit 3]];
                              Node KMul TInt [IntLit 2; x_]])]).
Proof. vm_compute. reflexivity. Qed.

(** ** counterexamples to the full statement *)
Definition read_line (s : string) (V : dict ty) : option (res expr) := option_map (fun l => match l with s :: _ => syg_expr [] V [] s | [] => Err ExIndex end) (generate_ast s).
(** the value SMT-LIB gives to a text *)
Definition text_val (I : interp) J (r : env) (s : string) : option val := match generate_ast s with Some [t] => sval I J r t | _ => None end.
Definition I0 : interp := {| i_div := fun _ _ => None; i_mod := fun _ _ => None; i_call := fun _ _ => None |}.

(** Of several bindings in one [let], all but the first are forgotten; when their names
    are also names of variables, another expression is read without any error. *)
Theorem C44_refuted_let :
  exists s e (r : env), read_line s [("x", TInt); ("y", TInt)] = Some (Ok e) /\
    text_val I0 (fun _ _ => None) r s = Some (VInt 3) /\ eval I0 r e = Some (VInt 101).
Proof.
  exists "(let ((x 1) (y 2)) (+ x y))", (Node KAdd TInt [IntLit 1; y_]), (fun x => if String.eqb x "y" then Some (VInt 100) else Some (VInt 0)).
  repeat split; vm_compute; reflexivity.
Qed.
Print Assumptions C44_refuted_let.

(** Sums with three operands, integer division and components of tuples are refused. *)
Theorem C44_refuted_nary :
  read_line "(+ x x x)" [("x", TInt)] = Some (Err ExValue) /\
  read_line "(div x 2)" [("x", TInt)] = Some (Err ExNYI) /\
  read_line "(tuple2_get0 x)" [("x", TTuple [TInt; TInt])] = Some (Err ExAttr).
Proof. repeat split; vm_compute; reflexivity. Qed.
Print Assumptions C44_refuted_nary.

(** The solver's [set.insert] takes any number of elements before the set; two elements
    are read as an element and a set, and the set is forgotten. *)
Theorem C44_refuted_insert :
  read_line "(set.insert 1 2 s)" [("s", TSet TInt)] = Some (Ok (Node KCall (TSet TInt) [Atom (PStr "set-insert"); IntLit 1; IntLit 2])).
Proof. vm_compute. reflexivity. Qed.
Print Assumptions C44_refuted_insert.

(** The name of a function is looked for in the word "sygus-candidate" as well. *)
Theorem C44_refuted_name :
  generate_candidates [] [{| sf_name := "c"; sf_grammar := IntLit 0; sf_vars := [x_] |}] "(sygus-candidate (c x))" = Err ExKey.
Proof. vm_compute. reflexivity. Qed.
Print Assumptions C44_refuted_name.
