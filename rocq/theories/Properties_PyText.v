(** C13: the Python text of an expression, read by the rules of Python, has the value of
    the expression. *)

From Coq Require Import String Ascii List ZArith Bool Lia.
From Verif Require Import Ast Semantics Dict UtilProofs SexpModel SexpProofs SmtPrint SmtPrintProofs PyText PyGram PyShape PyParse PyMean.
Import ListNotations.
Local Open Scope string_scope.
Local Open Scope list_scope.

(** A text is read in at most one way. *)
Theorem C13_unambiguous s p q : written s p -> written s q -> p = q.
Proof. intros A B. exact (proj1 (parses_fun GCond _ p q [] [] A B)). Qed.
Print Assumptions C13_unambiguous.

(** Full statement (false, see below): for every expression that is printed.  Missing:
    expressions in which a pair of parentheses would be needed that is not written
    ([clear] says which those are), and tuples with one component.

    [fn] are the names of functions; no variable has one of these names. *)
Theorem C13_text_partial fn e :
  fn "len" = true -> clear fn e = true ->
  exists s p, to_python e = Ok s /\ written s p /\
    forall I C r v, python_like I C -> (forall x, fn x = true -> r x = None) -> eqs_ok I r e ->
      eval I r e = Some v -> value C r p = Some v.
Proof.
  intros L Cl. destruct (clear_good fn L e Cl) as [s [ts [P [_ [X [[p [A M]] _]]]]]]. exists s, p. split; [exact P|]. split; [|exact M].
  unfold written. specialize (X "" eq_refl). assert (N : (s ++ "" = s)%string) by (clear; induction s; cbn; congruence). rewrite N in X. rewrite X. cbn [lex flush].
  pose proof (at_lower 0 (level e) _ _ (Nat.le_0_l _) (level_le e) A [] Logic.I) as Q. rewrite app_nil_r in *. exact Q.
Qed.
Print Assumptions C13_text_partial.

(** ** functions *)
(** the tokens of a type annotation *)
Fixpoint type_tokens (t : ty) : option (list tok) :=
  match t with
  | TInt => Some [TName "int"]
  | TBool => Some [TName "bool"]
  | TList e => option_map (fun ts => [TName "List"; LB] ++ ts ++ [RB]) (type_tokens e)
  | TMatrix e => option_map (fun ts => [TName "List"; LB; TName "List"; LB] ++ ts ++ [RB; RB]) (type_tokens e)
  | TFn (ret :: args) =>
      match type_tokens ret, mapO type_tokens args with
      | Some r, Some l => Some ([TName "Callable"; LB; LB] ++ tjoin Comma l ++ [RB; Comma] ++ r ++ [RB])
      | _, _ => None
      end
  | _ => None
  end.
Definition param_tokens (x : string * list tok) : list tok := TName (fst x) :: Colon :: snd x.

Lemma lexes_lit p tks u us : (forall s, lex "" (p ++ s) = tks ++ lex "" s) -> lexes u us -> lexes (p ++ u) (tks ++ us).
Proof. intros P B rest R. rewrite app_s, P, (B rest R), app_assoc. reflexivity. Qed.
Lemma lexes_lit1 p tks : (forall s, lex "" (p ++ s) = tks ++ lex "" s) -> lexes p tks.
Proof. intros P rest R. apply P. Qed.
Fixpoint type_text (t : ty) {struct t} : forall ts, type_tokens t = Some ts -> exists s, py_type t = Ok s /\ lexes s ts.
Proof.
  destruct t as [| |e|e|e|e|l|l]; intros ts H; cbn [type_tokens] in H; try discriminate H.
  - injection H as <-. exists "int". split; [reflexivity|]. refine (lexes_word _ _ _); [reflexivity|discriminate].
  - injection H as <-. exists "bool". split; [reflexivity|]. refine (lexes_word _ _ _); [reflexivity|discriminate].
  - destruct (type_tokens e) as [u|] eqn:E; [|discriminate H]. injection H as <-. destruct (type_text e u E) as [s [P X]].
    exists ("List[" ++ s ++ "]")%string. cbn [py_type]. rewrite P. split; [reflexivity|].
    change (TName "List" :: LB :: u ++ [RB]) with ([TName "List"; LB] ++ (u ++ [RB])). apply (lexes_lit "List["); [intros [|? ?]; reflexivity|].
    apply lexes_cat; [exact X|apply (lexes_end "]"); reflexivity|reflexivity|discriminate].
  - destruct (type_tokens e) as [u|] eqn:E; [|discriminate H]. injection H as <-. destruct (type_text e u E) as [s [P X]].
    exists ("List[List[" ++ s ++ "]]")%string. cbn [py_type]. rewrite P. split; [reflexivity|].
    apply (lexes_lit "List[List[" [TName "List"; LB; TName "List"; LB] (s ++ "]]") (u ++ [RB; RB])); [intros [|? ?]; reflexivity|].
    apply lexes_cat; [exact X|apply lexes_lit1; intros [|? ?]; reflexivity|reflexivity|discriminate].
  - destruct l as [|r l]; [discriminate H|]. destruct (type_tokens r) as [tr|] eqn:Er; [|discriminate H].
    destruct (mapO type_tokens l) as [tl|] eqn:El; [|discriminate H]. injection H as <-. destruct (type_text r tr Er) as [sr [Pr Xr]].
    assert (F : exists ss, mapR py_type l = Ok ss /\ Forall2 lexes ss tl).
    { clear - type_text El. revert tl El. induction l as [|a l IH]; intros tl El; cbn [mapO] in El.
      - injection El as <-. exists []. split; [reflexivity|constructor].
      - destruct (type_tokens a) as [ta|] eqn:Ea; [|discriminate El]. destruct (mapO type_tokens l) as [tl'|]; [|discriminate El]. injection El as <-.
        destruct (type_text a ta Ea) as [sa [Pa Xa]]. destruct (IH tl' eq_refl) as [ss [Ps Xs]].
        exists (sa :: ss). cbn [mapR]. rewrite Pa. cbn [bindR]. rewrite Ps. split; [reflexivity|constructor; assumption]. }
    destruct F as [ss [Ps Xs]]. exists ("Callable[[" ++ join ", " ss ++ "], " ++ sr ++ "]")%string. cbn [py_type]. rewrite Pr. cbn [bindR]. rewrite Ps. split; [reflexivity|].
    apply (lexes_lit "Callable[[" [TName "Callable"; LB; LB]); [intros [|? ?]; reflexivity|].
    apply lexes_cat; [apply (lexes_join ", "); [apply sep_comma|exact Xs]| |reflexivity|discriminate].
    apply (lexes_lit "], " [RB; Comma]); [intros [|? ?]; reflexivity|].
    apply lexes_cat; [exact Xr|apply (lexes_end "]"); reflexivity|reflexivity|discriminate].
Qed.

(** The text of a function is, token by token, a definition with the name, the
    parameters and the annotations of the function, whose body is one [return] statement
    on a line of its own.  The returned expression has the value of the body.  Missing:
    as above, and types without a notation. *)
Theorem C13_function_partial fn k f ret params body tret tps :
  k = KFnDeclRec \/ k = KFnDecl \/ k = KTarget ->
  fn "len" = true -> clear fn body = true -> py_name f = true -> Forall (fun x => py_name (fst x) = true) params ->
  type_tokens ret = Some tret -> mapO type_tokens (map snd params) = Some tps ->
  exists s ts p,
    fn_to_python (Node k (TFn (ret :: map snd params)) (Atom (PStr f) :: body :: map (fun x => mkVar (fst x) (snd x)) params)) = Ok s /\
    lex "" s = [KwDef; TName f; LP] ++ tjoin Comma (map param_tokens (combine (map fst params) tps)) ++ [RP; Arrow] ++ tret ++ [Colon; NL; KwReturn] ++ ts /\
    (exists n, parse n GCond ts = Some (p, [])) /\
    forall I C r v, python_like I C -> (forall x, fn x = true -> r x = None) -> eqs_ok I r body ->
      eval I r body = Some v -> value C r p = Some v.
Proof.
  intros K L Cl Nf Np Tr Tp. destruct (clear_good fn L body Cl) as [s [ts [P [_ [X [[p [A M]] _]]]]]].
  destruct (type_text ret tret Tr) as [sr [Pr Xr]]. destruct (word_name f Nf) as [Xf _].
  set (pr := fun a => x <- to_python a ;; ta <- type_of a ;; s <- py_type ta ;; Ok (x ++ ": " ++ s)%string).
  assert (F : exists ss, mapR pr (map (fun x => mkVar (fst x) (snd x)) params) = Ok ss /\ Forall2 lexes ss (map param_tokens (combine (map fst params) tps))).
  { clear - Np Tp. revert tps Tp. induction params as [|[x t] ps IH]; intros tps Tp; cbn [map snd fst mapO] in Tp |- *.
    - injection Tp as <-. exists []. split; [reflexivity|constructor].
    - destruct (type_tokens t) as [tt|] eqn:E; [|discriminate Tp]. destruct (mapO type_tokens (map snd ps)) as [tl|]; [|discriminate Tp]. injection Tp as <-.
      inversion Np as [|? ? N1 N2]; subst. destruct (IH N2 tl eq_refl) as [ss [Ps Xs]]. destruct (type_text t tt E) as [st [Pt Xt]]. destruct (word_name x N1) as [Xx _].
      exists ((x ++ ": " ++ st)%string :: ss). cbn [mapR]. unfold pr at 1. cbn [to_python mkVar py_join py_paren py_cmp bindR type_of]. rewrite Pt. cbn [bindR]. rewrite Ps.
      split; [reflexivity|]. cbn [combine map]. constructor; [|exact Xs]. apply (lexes_cat x [TName x]); [exact Xx| |reflexivity|discriminate].
      apply (lexes_lit ": " [Colon]); [intros [|? ?]; reflexivity|exact Xt]. }
  destruct F as [ss [Ps Xs]].
  exists ("def " ++ f ++ "(" ++ join ", " ss ++ ") -> " ++ sr ++ ":" ++ newline ++ "    return " ++ s)%string, ts, p. split; [|split; [|split; [|exact M]]].
  - assert (E : fn_to_python (Node k (TFn (ret :: map snd params)) (Atom (PStr f) :: body :: map (fun x => mkVar (fst x) (snd x)) params)) =
      (ps <- mapR pr (map (fun x => mkVar (fst x) (snd x)) params) ;; ret <- fn_return_type (TFn (ret :: map snd params)) ;; r <- py_type ret ;;
      b <- to_python body ;; Ok ("def " ++ f ++ "(" ++ join ", " ps ++ ") -> " ++ r ++ ":" ++ newline ++ "    return " ++ b)%string)) by (destruct K as [->|[->| ->]]; reflexivity).
    rewrite E, Ps. cbn [bindR fn_return_type]. rewrite Pr. cbn [bindR]. rewrite P. reflexivity.
  - assert (Y : lexes ("def " ++ f ++ "(" ++ join ", " ss ++ ") -> " ++ sr ++ ":" ++ newline ++ "    return " ++ s)
      ([KwDef] ++ [TName f] ++ [LP] ++ tjoin Comma (map param_tokens (combine (map fst params) tps)) ++ [RP; Arrow] ++ tret ++ [Colon; NL; KwReturn] ++ ts)).
    { apply (lexes_lit "def "); [intros [|? ?]; reflexivity|]. apply lexes_cat; [exact Xf| |reflexivity|discriminate].
      apply (lexes_lit "("); [intros; exact (lex_solo "(" _ eq_refl)|]. apply lexes_cat; [apply (lexes_join ", "); [apply sep_comma|exact Xs]| |reflexivity|discriminate].
      apply (lexes_lit ") -> "); [intros [|? ?]; reflexivity|]. apply lexes_cat; [exact Xr| |reflexivity|discriminate].
      change (":" ++ newline ++ "    return " ++ s)%string with ((":" ++ newline ++ "    return ") ++ s)%string. apply lexes_lit; [intros [|? ?]; reflexivity|exact X]. }
    specialize (Y "" eq_refl). assert (N : forall a, (a ++ "" = a)%string) by (clear; induction a; cbn; congruence). rewrite N in Y. rewrite Y. cbn [lex flush]. rewrite app_nil_r. reflexivity.
  - pose proof (at_lower 0 (level body) _ _ (Nat.le_0_l _) (level_le body) A [] Logic.I) as Q. rewrite app_nil_r in *. exact Q.
Qed.
Print Assumptions C13_function_partial.

(** ** an interpretation, and a case *)
Definition lib (f : string) (vs : list val) : option val :=
  if String.eqb f "list_length" then match vs with [VList l] => Some (VInt (Z.of_nat (List.length l))) | _ => None end
  else if String.eqb f "list_get" then match vs with [VList l; VInt i] => if Z.leb 0 i then nth_error l (Z.to_nat i) else None | _ => None end
  else if String.eqb f "list_append" then match vs with [VList l; a] => Some (VList (l ++ [a])) | _ => None end
  else if String.eqb f "list_tail" then match vs with [VList l; VInt n] => if Z.leb 0 n then Some (VList (skipn (Z.to_nat n) l)) else None | _ => None end
  else if String.eqb f "double" then match vs with [VInt z] => Some (VInt (2 * z)) | _ => None end
  else None.
Definition floor_div (a b : Z) : option Z := if Z.eqb b 0 then None else Some (a / b)%Z.
Definition floor_mod (a b : Z) : option Z := if Z.eqb b 0 then None else Some (a mod b)%Z.
Definition py_interp : interp := {| i_div := floor_div; i_mod := floor_mod; i_call := lib |}.
Lemma py_interp_ok : python_like py_interp lib.
Proof.
  split.
  - intros a b q E. cbn in E. unfold floor_div in E. destruct (Z.eqb_spec b 0); [discriminate E|]. injection E as <-. auto.
  - intros a b q E. cbn in E. unfold floor_mod in E. destruct (Z.eqb_spec b 0); [discriminate E|]. injection E as <-. auto.
  - intros f vs v H E. cbn in E. unfold lib in E.
    destruct (String.eqb_spec f "list_length") as [->|_].
    { destruct vs as [|[] []]; try discriminate E. injection E as <-. exists l. auto. }
    destruct (String.eqb_spec f "list_get") as [->|_].
    { destruct vs as [|[] [|[] []]]; try discriminate E. destruct (Z.leb_spec 0 z); [|discriminate E]. exists l, z. auto. }
    destruct (String.eqb_spec f "list_append") as [->|_].
    { destruct vs as [|[] [|w []]]; try discriminate E. injection E as <-. exists l, w. auto. }
    destruct (String.eqb_spec f "list_tail") as [->|_].
    { destruct vs as [|[] [|[] []]]; try discriminate E. destruct (Z.leb_spec 0 z); [|discriminate E]. injection E as <-. exists l, z. auto. }
    destruct (String.eqb_spec f "double") as [->|_]; [|discriminate E].
    vm_compute in H. discriminate H.
  - intros f vs v E. exact E.
Qed.
Definition xs := mkVar "xs" (TList TInt).
Definition n := mkVar "n" TInt.
Definition int (z : Z) := mkLit (PInt z) TInt.
Definition node k t l := Node k t l.
Definition call f t l := Node KCall t (Atom (PStr f) :: l).
(** [double(xs[(n - -1)]) + 3 * n if n + 1 < len(xs[1:]) and not n == 0 else len([*xs, n])] *)
Definition case_e : expr :=
  node KIte TInt
    [node KAnd TBool [node KLt TBool [node KAdd TInt [n; int 1]; call "list_length" TInt [call "list_tail" (TList TInt) [xs; int 1]]];
                      node KNot TBool [node KEq TBool [n; int 0]]];
     node KAdd TInt [call "double" TInt [call "list_get" TInt [xs; node KSub TInt [n; int (-1)]]]; node KMul TInt [int 3; n]];
     call "list_length" TInt [call "list_append" (TList TInt) [xs; n]]].
Definition case_fn (x : string) : bool := smem x ["len"; "double"].
Definition case_env : env := fun x => dget [("xs", VList [VInt 7; VInt 8; VInt 9; VInt 10]); ("n", VInt 1)] x.
Example C13_case :
  clear case_fn case_e = true /\ python_like py_interp lib /\ (forall x, case_fn x = true -> case_env x = None) /\ eqs_ok py_interp case_env case_e /\
  eval py_interp case_env case_e = Some (VInt 21) /\
  to_python case_e = Ok "(double(xs[(n - -1)]) + 3 * n if n + 1 < len(xs[1:]) and not n == 0 else len([*xs, n]))" /\
  option_map (fun x => value lib case_env (fst x)) (parse 100 GCond (lex "" "(double(xs[(n - -1)]) + 3 * n if n + 1 < len(xs[1:]) and not n == 0 else len([*xs, n]))")) =
  Some (Some (VInt 21)).
Proof.
  split; [reflexivity|]. split; [exact py_interp_ok|]. split.
  - intros x H. unfold case_fn in H. apply (two x "len" "double") in H. destruct H; subst; reflexivity.
  - split; [|repeat split; vm_compute; reflexivity].
    cbn [eqs_ok case_e node call n xs int mkVar mkLit mapO]. repeat split; try discriminate. intros _ a b E. vm_compute in E. injection E as <- <-. reflexivity.
Qed.
Example C13_function_case :
  fn_to_python (Node KFnDecl (TFn [TInt; TList TInt; TFn [TInt; TInt]]) [Atom (PStr "g"); case_e; xs; mkVar "h" (TFn [TInt; TInt])]) =
  Ok ("def g(xs: List[int], h: Callable[[int], int]) -> int:" ++ newline ++
      "    return (double(xs[(n - -1)]) + 3 * n if n + 1 < len(xs[1:]) and not n == 0 else len([*xs, n]))")%string.
Proof. reflexivity. Qed.

(** ** where the statement fails *)
(** the English statement, for one expression *)
Definition text_right (e : expr) : Prop :=
  forall s, to_python e = Ok s -> exists p, written s p /\
    forall I C r v, python_like I C -> r "len" = None -> eqs_ok I r e -> eval I r e = Some v -> value C r p = Some v.
Lemma wrong e s p r v w k :
  to_python e = Ok s -> parse k GCond (lex "" s) = Some (p, []) -> r "len" = None -> eqs_ok py_interp r e ->
  eval py_interp r e = Some v -> value lib r p = Some w -> v <> w -> ~ text_right e.
Proof.
  intros P W L Q E V N T. destruct (T s P) as [q [W2 M]]. rewrite (C13_unambiguous s q p W2 (ex_intro _ k W)) in M.
  rewrite (M _ _ _ v py_interp_ok L Q E) in V. congruence.
Qed.
Definition a := mkVar "a" TInt.
Definition b := mkVar "b" TInt.
Definition c := mkVar "c" TInt.
Definition p := mkVar "p" TBool.
Definition q := mkVar "q" TBool.
Definition nums : env := fun x => dget [("a", VInt 1); ("b", VInt 2); ("c", VInt 3); ("p", VBool false); ("q", VBool false)] x.
Ltac built := repeat first [apply wf_Var | apply wf_Lit | apply Forall_cons | apply Forall_nil
  | match goal with |- wf (Node ?k _ ?l) =>
      first [apply (@wf_ArithN k l); [cbn; tauto| |reflexivity] | apply (@wf_Arith2 k l); [cbn; tauto| |reflexivity] | apply (@wf_Eq l); [|reflexivity]
            | apply (@wf_BoolN k l); [cbn; tauto| |reflexivity] | apply (@wf_Not l); [|reflexivity]] end].
Ltac refute k r := eapply (wrong _ _ _ r _ _ k); [reflexivity|reflexivity|reflexivity| |reflexivity|reflexivity|discriminate];
  cbn; repeat split; try discriminate; intros _ ? ? E; vm_compute in E; injection E as <- <-; reflexivity.

(** [(a + b) * c] is printed as [a + b * c]. *)
Definition sum_times : expr := node KMul TInt [node KAdd TInt [a; b]; c].
Theorem C13_product_refuted : wf sum_times /\ to_python sum_times = Ok "a + b * c" /\ ~ text_right sum_times.
Proof. split; [unfold sum_times, node; built|]. split; [reflexivity|]. refute 60 nums. Qed.
Print Assumptions C13_product_refuted.

(** [a - (b + c)] is printed as [(a - b + c)]. *)
Definition minus_sum : expr := node KSub TInt [a; node KAdd TInt [b; c]].
Theorem C13_difference_refuted : wf minus_sum /\ to_python minus_sum = Ok "(a - b + c)" /\ ~ text_right minus_sum.
Proof. split; [unfold minus_sum, node; built|]. split; [reflexivity|]. refute 60 nums. Qed.
Print Assumptions C13_difference_refuted.

(** [(c + b) // b] is printed as [(c + b // b)]. *)
Definition sum_div : expr := node KDiv TInt [node KAdd TInt [c; b]; b].
Theorem C13_quotient_refuted : wf sum_div /\ to_python sum_div = Ok "(c + b // b)" /\ ~ text_right sum_div.
Proof. split; [unfold sum_div, node; built|]. split; [reflexivity|]. refute 60 nums. Qed.
Print Assumptions C13_quotient_refuted.

(** [not (p and q)] is printed as [not p and q]. *)
Definition not_and : expr := node KNot TBool [node KAnd TBool [p; q]].
Theorem C13_not_refuted : wf not_and /\ to_python not_and = Ok "not p and q" /\ ~ text_right not_and.
Proof. split; [unfold not_and, node; built|]. split; [reflexivity|]. refute 60 nums. Qed.
Print Assumptions C13_not_refuted.

(** [(not p or p) and q] is printed as [not p or p and q]. *)
Definition or_and : expr := node KAnd TBool [node KOr TBool [node KNot TBool [p]; p]; q].
Theorem C13_and_refuted : wf or_and /\ to_python or_and = Ok "not p or p and q" /\ ~ text_right or_and.
Proof. split; [unfold or_and, node; built|]. split; [reflexivity|]. refute 60 nums. Qed.
Print Assumptions C13_and_refuted.

(** [(p = q) = q] is printed as [p == q == q], a chain of comparisons. *)
Definition eq_eq : expr := node KEq TBool [node KEq TBool [p; q]; q].
Theorem C13_comparison_refuted : wf eq_eq /\ to_python eq_eq = Ok "p == q == q" /\ ~ text_right eq_eq.
Proof. split; [unfold eq_eq, node; built|]. split; [reflexivity|]. refute 60 nums. Qed.
Print Assumptions C13_comparison_refuted.

(** The text of a tuple with one component is not the text of a tuple. *)
Definition one_tuple : expr := node KTupleExpr (TTuple [TInt]) [a].
Theorem C13_tuple_refuted : mkTupleExpr [a] = Ok one_tuple /\ to_python one_tuple = Ok "(a)" /\ ~ text_right one_tuple.
Proof. split; [reflexivity|]. split; [reflexivity|]. refute 60 nums. Qed.
Print Assumptions C13_tuple_refuted.

(** A name that is a word of Python, as a C program may use, is not an expression. *)
Theorem C13_name_refuted : to_python (mkVar "in" TInt) = Ok "in" /\ forall p, ~ written "in" p.
Proof.
  split; [reflexivity|]. intros p [m E]. apply (parse_le m (20 + m)) in E; [|lia]. revert E. change (lex "" "in") with [TOther]. intros E.
  cbn [Nat.add] in E. cbn in E. discriminate E.
Qed.
Print Assumptions C13_name_refuted.

(** The annotation of a three-dimensional tensor is that of a list of its elements, and
    functions with tuples or sets in their type are not printed at all. *)
Theorem C13_annotation_refuted t :
  py_type (TTensor3D t) = py_type (TList t) /\ (forall l, py_type (TTuple l) = Err ExNYI) /\ py_type (TSet t) = Err ExNYI.
Proof. repeat split. Qed.
Print Assumptions C13_annotation_refuted.
