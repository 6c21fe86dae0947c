(** Proofs about RosPrint.v. *)

From Coq Require Import DecimalString DecimalZ DecimalPos.
From Coq Require Import String Ascii List ZArith Bool Lia.
From Verif Require Import Ast Dict IrProofs SexpModel SexpProofs SmtPrint SmtPrintProofs RktModel RosPrint RosText.
Import ListNotations.
Local Open Scope string_scope.
Local Open Scope list_scope.

(** the printed head of a call *)
Definition rhead (f : string) (l : list expr) : string :=
  if starts "inv" f || starts "ps" f then f
  else if starts "list" f || starts "vec" f || starts "matrix" f || starts "tensor3d" f then
    match list_fn f l with Ok g => g | Err _ => f end
  else if starts "integer" f then match integer_fn f with Ok g => g | Err _ => f end
  else f.
(** the printed tree *)
Fixpoint rtree (e : expr) : sexp :=
  match e with
  | Atom a => SA (str_atom a)
  | Node k t args =>
      match k with
      | KVar => match args with Atom (PStr x) :: _ => SA x | _ => SL [] end
      | KLit => match args with Atom a :: _ => SA (lit_text t a) | _ => SL [] end
      | KTupleExpr => SL (SA "make-tuple" :: map rtree args)
      | KCall => match args with Atom (PStr f) :: l => SL (SA (rhead f l) :: map rtree l) | _ => SL [] end
      | KEq => SL (SA (match args with a :: _ => if is_set (ty_of a) then "set-eq" else "equal?" | [] => "equal?" end) :: map rtree args)
      | k => SL (SA (match ros_op k with Some o => o | None => "" end) :: map rtree args)
      end
  end.

(** ** texts *)
Lemma concat_cons x l : String.concat "" (x :: l) = (x ++ String.concat "" l)%string.
Proof.
  destruct l; cbn [String.concat]; [|reflexivity]. induction x as [|c x IH]; [reflexivity|]. cbn. rewrite <- IH. reflexivity.
Qed.
Lemma reads_spaced ss tss : Forall2 reads ss tss -> reads (spaced ss) (concat tss).
Proof.
  induction 1 as [|s ts ss tss H F IH]; [apply reads_nil|].
  cbn [concat]. unfold spaced in *. cbn [map]. rewrite concat_cons, app_s. cbn [String.append]. apply reads_space; assumption.
Qed.
Definition styles (g : string) (ss : list string) (s : string) : Prop :=
  s = ("(" ++ join " " (g :: ss) ++ ")")%string \/ s = ros_simple g ss \/ s = ("( " ++ g ++ " " ++ spaced ss ++ ")")%string.
Lemma styles_reads g ss s l : styles g ss s -> word g = true -> Forall2 reads ss (map toks l) -> reads s (toks (SL (SA g :: l))).
Proof.
  intros S0 W F.
  assert (X : reads (String "(" (g ++ String " " (spaced ss ++ ")"))) (TL :: TW g :: concat (map toks l) ++ [TR])).
  { replace (g ++ String " " (spaced ss ++ ")"))%string with ((g ++ String " " (spaced ss)) ++ ")")%string by (rewrite app_s; reflexivity).
    refine (reads_paren _ (TW g :: concat (map toks l)) _). refine (reads_space g (spaced ss) [TW g] _ (reads_word g W) _).
    apply reads_spaced. exact F. }
  destruct S0 as [-> | [-> | ->]].
  - apply reads_call; assumption.
  - rewrite <- toks_list. exact X.
  - rewrite <- toks_list. intros r E. specialize (X r E). cbn [String.append] in *. rewrite tok_open, tok_space, <- tok_open. exact X.
Qed.

(** ** numbers and names *)
Lemma number_uint u : NilEmpty.string_of_uint u <> "" -> number (NilEmpty.string_of_uint u) = Some (Z.of_uint u).
Proof.
  intros N. unfold number. destruct (NilEmpty.string_of_uint u) eqn:E; [congruence|]. rewrite <- E, NilEmpty.usu. reflexivity.
Qed.
Lemma number_nondigit c r : digit c = false -> number (String c r) = None.
Proof.
  intros D. unfold number. cbn [NilEmpty.uint_of_string].
  assert (X : forall o, uint_of_char c o = None).
  { intros [u|]; [|reflexivity]. destruct c as [[] [] [] [] [] [] [] []]; vm_compute in D; try discriminate D; reflexivity. }
  rewrite X. reflexivity.
Qed.
Lemma read_Z F V z : read_atom F V (string_of_Z z) = Ok (IntLit z).
Proof.
  unfold string_of_Z. destruct z as [|p|p]; cbn [Z.to_int NilEmpty.string_of_int].
  - reflexivity.
  - unfold read_atom. rewrite (number_uint _ (pos_uint_nonempty p)).
    pose proof (DecimalZ.of_to (Z.pos p)) as X. cbn [Z.to_int Z.of_int] in X. rewrite X. reflexivity.
  - unfold read_atom. rewrite number_nondigit by reflexivity. change (Ascii.eqb "-" "-") with true. cbv iota.
    rewrite (number_uint _ (pos_uint_nonempty p)).
    pose proof (DecimalZ.of_to (Z.neg p)) as X. cbn [Z.to_int Z.of_int] in X. rewrite X. reflexivity.
Qed.
Lemma read_name F V x t : ros_name x = true -> match dget F x with Some t => Some t | None => dget V x end = Some t ->
  read_atom F V x = Ok (mkVar x t).
Proof.
  unfold ros_name. intros N D. apply andb_true_iff in N. destruct N as [N B]. apply andb_true_iff in N. destruct N as [W N].
  destruct x as [|c r]; [discriminate W|]. apply negb_true_iff, orb_false_iff in N. destruct N as [N1 N2].
  unfold read_atom. rewrite (number_nondigit c r N1), N2.
  apply negb_true_iff in B. cbn [smem existsb] in B. apply orb_false_iff in B. destruct B as [B1 B2]. apply orb_false_iff in B2. destruct B2 as [B2 _].
  rewrite B1, B2. destruct (dget F (String c r)); [congruence|]. rewrite D. reflexivity.
Qed.

(** ** heads *)
Lemma smem_cons f x l : smem f (x :: l) = (String.eqb f x || smem f l).
Proof. reflexivity. Qed.
Lemma smem_sub f l l' : forallb (fun x => smem x l') l = true -> smem f l' = false -> smem f l = false.
Proof.
  induction l as [|x l IH]; intros H N; [reflexivity|]. cbn [forallb] in H. apply andb_true_iff in H. destruct H as [H1 H2].
  rewrite smem_cons, (IH H2 N), orb_false_r. destruct (String.eqb_spec f x); [subst; congruence|reflexivity].
Qed.
Lemma find_smem A (L : list (string * A)) f : smem f (map fst L) = false -> find (fun p => String.eqb f (fst p)) L = None.
Proof.
  induction L as [|[x a] L IH]; [reflexivity|]. cbn [map fst find]. rewrite smem_cons. intros H. apply orb_false_iff in H.
  destruct H as [-> H]. auto.
Qed.
Lemma smem_in f l : smem f l = true -> In f l.
Proof. unfold smem. intros H. apply existsb_exists in H. destruct H as [x [I E]]. apply String.eqb_eq in E. subst. exact I. Qed.

Section Read.
  Variables F V : dict ty.
  Notation read := (to_expr F V).

  Lemma rule_call g r sl : smem g ["define"; "choose"; "!"; "if"; "="; "set-eq"] = false -> read_op g = None -> find_rule g = Some r ->
    read (SL (SA g :: sl)) = apply_rule r (map read sl).
  Proof.
    rewrite !smem_cons. cbn [smem existsb]. rewrite !orb_false_r. intros N O R.
    do 5 (apply orb_false_iff in N; let H := fresh "N" in destruct N as [H N]).
    cbn [to_expr]. rewrite N0, N1, O, N2, N3, N4, N, R. reflexivity.
  Qed.
  Lemma op_call g mk sl : String.eqb g "define" = false -> String.eqb g "choose" = false -> read_op g = Some mk ->
    read (SL (SA g :: sl)) = (es <- first_res (List.length (map read sl)) (map read sl) ;; mk es).
  Proof. intros N1 N2 R. cbn [to_expr]. rewrite N1, N2, R. reflexivity. Qed.
  Lemma tuple_call sl : read (SL (SA "make-tuple" :: sl)) = (es <- first_res (List.length (map read sl)) (map read sl) ;; mkTupleExpr es).
  Proof. reflexivity. Qed.
  Lemma user_call f sl tf : smem f heads = false -> dget F f = Some tf ->
    read (SL (SA f :: sl)) = (rt <- fn_return_type tf ;; es <- first_res (List.length (map read sl)) (map read sl) ;; mkCall (Atom (PStr f)) rt es).
  Proof.
    intros N D.
    assert (X : forall h, smem h heads = true -> String.eqb f h = false).
    { intros h H. destruct (String.eqb_spec f h); [subst; congruence|reflexivity]. }
    cbn [to_expr]. rewrite (X "define"), (X "choose") by reflexivity.
    assert (O : read_op f = None) by (unfold read_op; rewrite find_smem; [reflexivity|]; apply (smem_sub f _ heads); [reflexivity|exact N]).
    assert (R : find_rule f = None) by (unfold find_rule; rewrite find_smem; [reflexivity|]; apply (smem_sub f _ heads); [reflexivity|exact N]).
    rewrite O, R, (X "!"), (X "if"), (X "="), (X "set-eq"), (X "make-tuple"), (X "let") by reflexivity.
    rewrite (smem_sub f broken heads eq_refl N). cbn [orb]. rewrite D. reflexivity.
  Qed.
  Lemma first_ok A (l : list A) : first_res (List.length (map Ok l)) (map Ok l) = Ok l.
  Proof. induction l as [|a l IH]; [reflexivity|]. cbn [map List.length first_res]. cbn [bindR]. rewrite IH. reflexivity. Qed.

  Definition is_node (e : expr) : Prop := exists k t args, e = Node k t args.

  (** what is needed of a call *)
  Definition call_good (f : string) (l : list expr) (t : ty) : Prop :=
    word (rhead f l) = true /\
    (forall ss, mapR to_rosette l = Ok ss -> exists s, to_rosette (Node KCall t (Atom (PStr f) :: l)) = Ok s /\ styles (rhead f l) ss s) /\
    (forall sl, map read sl = map Ok l -> read (SL (SA (rhead f l) :: sl)) = Ok (Node KCall t (Atom (PStr f) :: l))).

  Lemma user_good f l t : user_name f = true -> dget F f = Some (TFn t) -> forall r ts, t = r :: ts -> call_good f l r.
  Proof.
    intros U D r ts ->. unfold user_name in U.
    apply andb_true_iff in U. destruct U as [U U5]. apply andb_true_iff in U. destruct U as [U U4]. apply andb_true_iff in U. destruct U as [U U3].
    apply andb_true_iff in U. destruct U as [U1 U2]. apply negb_true_iff in U2, U3, U4, U5.
    assert (LF : list_fn f l = Ok f).
    { unfold list_fn, get_list_fn. rewrite find_smem by (apply (smem_sub f _ library); [reflexivity|exact U3]).
      assert (X : forall h, smem h library = true -> String.eqb f h = false).
      { intros h H. destruct (String.eqb_spec f h); [subst; congruence|reflexivity]. }
      rewrite (X "matrix_transpose"), (X "list_concat") by reflexivity. reflexivity. }
    assert (H : rhead f l = f).
    { unfold rhead. rewrite LF. change (starts "integer" f) with (String.prefix "integer" f). rewrite U4.
      destruct (starts "inv" f || starts "ps" f); [reflexivity|]. destruct (_ || _ || _ || _); reflexivity. }
    unfold call_good. rewrite H. split; [exact U1|]. split.
    - intros ss M. cbn [to_rosette ros_op]. rewrite LF, M. change (starts "integer" f) with (String.prefix "integer" f). rewrite U4, U5. cbn [bindR].
      destruct (starts "inv" f || starts "ps" f); [eexists; split; [reflexivity|]; unfold styles; auto|].
      destruct (_ || _ || _ || _); eexists; split; try reflexivity; unfold styles; auto.
    - intros sl M. rewrite (user_call f sl _ U2 D), M, first_ok. reflexivity.
  Qed.

  Ltac nodes :=
    repeat match goal with H : Forall is_node (_ :: _) |- _ => inversion H as [|? ? [? [? [? ->]]] ?]; subst; clear H end.
  Ltac rule_case g :=
    split; [reflexivity|]; split;
    [ let ss := fresh "ss" in let M := fresh "M" in intros ss M;
      cbn [to_rosette ros_op starts String.prefix Ascii.ascii_dec]; cbn -[mapR to_rosette spaced join]; rewrite M; cbn [bindR];
      eexists; split; [reflexivity|]; unfold styles; auto
    | let sl := fresh "sl" in let M := fresh "M" in intros sl M;
      match goal with |- to_expr _ _ (SL (SA (rhead ?f ?l) :: _)) = _ => change (rhead f l) with g end;
      rewrite (rule_call g _ sl eq_refl eq_refl eq_refl), M; reflexivity ].

  Lemma call_ok f l t : call_type F f (map ty_of l) = Some t -> Forall is_node l -> call_good f l t.
  Proof.
    unfold call_type. intros C N.
    match type of C with (if smem f ?L then _ else _) = _ => destruct (smem f L) eqn:E end.
    { destruct l as [|a [|]]; try discriminate C. injection C as <-. nodes.
      apply smem_in in E. cbn [In] in E.
      destruct E as [<- | [<- | [<- | [<- | [<- | []]]]]]; unfold call_good.
      - rule_case "length".
      - rule_case "matrix-length".
      - rule_case "tensor3d-length".
      - rule_case "integer-sqrt-noerr".
      - rule_case "integer-exp-noerr". }
    clear E. destruct (String.eqb_spec f "list_empty") as [-> | _].
    { destruct l; try discriminate C. injection C as <-. unfold call_good. rule_case "list-empty". }
    destruct (String.eqb_spec f "matrix_empty") as [-> | _].
    { destruct l; try discriminate C. injection C as <-. unfold call_good. rule_case "matrix-empty". }
    destruct (String.eqb_spec f "tensor3d_empty") as [-> | _].
    { destruct l; try discriminate C. injection C as <-. unfold call_good. rule_case "tensor3d-empty". }
    destruct (String.eqb_spec f "list_prepend") as [-> | _].
    { destruct l as [|a [|b [|]]]; try discriminate C. nodes. injection C as <-. unfold call_good. rule_case "list-prepend". }
    match type of C with (if smem f ?L then _ else _) = _ => destruct (smem f L) eqn:E end.
    { destruct l as [|a [|b [|]]]; try discriminate C. nodes. injection C as <-.
      apply smem_in in E. cbn [In] in E. destruct E as [<- | [<- | []]]; unfold call_good.
      - rule_case "matrix-prepend".
      - rule_case "tensor3d-prepend". }
    clear E. match type of C with (if smem f ?L then _ else _) = _ => destruct (smem f L) eqn:E end.
    { destruct l as [|a [|b [|]]]; try discriminate C. nodes. cbn [map ty_of] in C.
      apply smem_in in E. cbn [In] in E. destruct E as [<- | [<- | []]]; unfold call_good;
      match type of C with elem ?t = _ => destruct t; try discriminate C; injection C as <- end;
      solve [rule_case "list-ref-noerr" | rule_case "matrix-ref-noerr"]. }
    clear E. destruct (String.eqb_spec f "tensor3d_get") as [-> | _].
    { destruct l as [|a [|b [|]]]; try discriminate C. nodes. injection C as <-. unfold call_good. rule_case "tensor3d-ref-noerr". }
    match type of C with (if smem f ?L then _ else _) = _ => destruct (smem f L) eqn:E end.
    { destruct l as [|a [|b [|]]]; try discriminate C. nodes. injection C as <-.
      apply smem_in in E. cbn [In] in E.
      destruct E as [<- | [<- | [<- | [<- | [<- | [<- | [<- | [<- | [<- | [<- | []]]]]]]]]]]; unfold call_good.
      - rule_case "matrix-append".
      - rule_case "tensor3d-append".
      - rule_case "list-tail-noerr".
      - rule_case "matrix-tail-noerr".
      - rule_case "tensor3d-tail-noerr".
      - rule_case "list-take-noerr".
      - rule_case "matrix-take-noerr".
      - rule_case "tensor3d-take-noerr".
      - rule_case "set-union".
      - rule_case "set-minus". }
    clear E. destruct (String.eqb_spec f "list_concat") as [-> | _].
    { destruct l as [|a [|b [|]]]; try discriminate C. nodes. cbn [map ty_of] in C. unfold call_good.
      match type of C with match elem ?t with _ => _ end = _ => destruct t as [| |t'|t'|t'|t'| |]; try discriminate C; destruct t'; try discriminate C; injection C as <- end;
      rule_case "list-concat". }
    match type of C with (if smem f ?L then _ else _) = _ => destruct (smem f L) eqn:E end.
    { destruct l as [|a [|b [|c [|]]]]; try discriminate C. nodes. injection C as <-.
      apply smem_in in E. cbn [In] in E.
      destruct E as [<- | [<- | [<- | [<- | [<- | [<- | []]]]]]]; unfold call_good.
      - rule_case "vec-slice-noerr".
      - rule_case "matrix-row-slice-noerr".
      - rule_case "vec-slice-with-length-noerr".
      - rule_case "matrix-row-slice-with-length-noerr".
      - rule_case "matrix-col-slice-noerr".
      - rule_case "matrix-col-slice-with-length-noerr". }
    clear E. destruct (String.eqb_spec f "matrix_transpose") as [-> | _].
    { destruct l as [|a [|]]; cbn [map] in C.
      - discriminate C.
      - nodes. cbn [ty_of] in C. unfold call_good.
        match type of C with match ?t with _ => _ end = _ => destruct t as [| |t'|t'|t'|t'| |]; try discriminate C; try (destruct t'; try discriminate C); injection C as <- end;
        rule_case "matrix-transpose-noerr".
      - destruct (ty_of a) as [| |t'|t'|t'|t'| |]; try discriminate C. destruct t'; discriminate C. }
    destruct (String.eqb_spec f "set-create") as [-> | _].
    { destruct l; try discriminate C. injection C as <-. unfold call_good. rule_case "set-create". }
    destruct (String.eqb_spec f "set-insert") as [-> | _].
    { destruct l as [|a [|b [|]]]; try discriminate C. nodes. injection C as <-. unfold call_good. rule_case "set-insert". }
    destruct (String.eqb_spec f "set-singleton") as [-> | _].
    { destruct l as [|a [|]]; try discriminate C. nodes. injection C as <-. unfold call_good. rule_case "set-singleton". }
    match type of C with (if smem f ?L then _ else _) = _ => destruct (smem f L) eqn:E end.
    { destruct l as [|a [|b [|]]]; try discriminate C. nodes. injection C as <-.
      apply smem_in in E. cbn [In] in E. destruct E as [<- | [<- | []]]; unfold call_good.
      - rule_case "set-subset".
      - rule_case "set-member". }
    clear E. destruct (user_name f) eqn:U; [|discriminate C].
    destruct (dget F f) as [[| | | | | | |[|r ts]]|] eqn:D; try discriminate C. injection C as <-.
    exact (user_good f l (r :: ts) U D r ts eq_refl).
  Qed.

  (** ** expressions *)
  Definition round (e : expr) : Prop :=
    is_node e /\ (exists s, to_rosette e = Ok s /\ reads s (toks (rtree e))) /\ read (rtree e) = Ok e.

  Lemma round_args l : Forall round l ->
    Forall is_node l /\ (exists ss, mapR to_rosette l = Ok ss /\ Forall2 reads ss (map toks (map rtree l))) /\ map read (map rtree l) = map Ok l.
  Proof.
    induction 1 as [|e l [N [[s [E R]] T]] Fl [Ns [[ss [M Rs]] Ts]]].
    - split; [constructor|]. split; [|reflexivity]. exists []. split; [reflexivity|constructor].
    - split; [constructor; assumption|]. split.
      + exists (s :: ss). cbn [mapR]. rewrite E. cbn [bindR]. rewrite M. split; [reflexivity|]. cbn [map]. constructor; assumption.
      + cbn [map]. rewrite T, Ts. reflexivity.
  Qed.

  Lemma simple_print op ss l : word op = true -> Forall2 reads ss (map toks (map rtree l)) ->
    reads (ros_simple op ss) (toks (SL (SA op :: map rtree l))).
  Proof. intros W R. apply (styles_reads op ss); [unfold styles; auto|exact W|exact R]. Qed.

  (** operators read by [expr_bi] *)
  Lemma op_round k t l op mk : ros_op k = Some op -> k <> KEq -> k <> KVar -> k <> KLit -> k <> KTupleExpr -> k <> KCall ->
    word op = true -> String.eqb op "define" = false -> String.eqb op "choose" = false -> read_op op = Some mk ->
    mk l = Ok (Node k t l) -> Forall round l -> round (Node k t l).
  Proof.
    intros O K1 K2 K3 K4 K5 W D1 D2 RO MK Fl. destruct (round_args l Fl) as [Ns [[ss [M Rs]] Ts]].
    assert (T : rtree (Node k t l) = SL (SA op :: map rtree l)) by (destruct k; try congruence; cbn [rtree]; rewrite O; reflexivity).
    split; [repeat eexists|]. rewrite T. split.
    - exists (ros_simple op ss). split; [|apply simple_print; assumption].
      cbn [to_rosette]. rewrite O, M. destruct k; try congruence; reflexivity.
    - rewrite (op_call op mk _ D1 D2 RO), Ts, first_ok. cbn [bindR]. exact MK.
  Qed.

  Definition is_op (k : kind) : bool :=
    match k with KAdd | KSub | KMul | KDiv | KMod | KEq | KLt | KLe | KGt | KGe | KAnd | KOr | KNot | KImplies | KIte => true | _ => false end.
  Lemma rebuild_op k t args e : is_op k = true -> rebuild k t args = Ok e -> exists t', e = Node k t' args.
  Proof.
    intros K E. destruct k; try discriminate K; cbn [rebuild] in E;
      unfold mkArithN, mkArith2, mkEq, mkCmp, mkBoolN, mkNot, mkImplies, mkIte in E;
      repeat match type of E with
        | match ?l with [] => _ | _ => _ end = _ => destruct l; try discriminate E
        | bindR ?r _ = _ => destruct r; cbn [bindR] in E; try discriminate E
        | (if ?b then _ else _) = _ => destruct b; try discriminate E
        end; injection E as <-; eauto.
  Qed.
  Lemma rebuild_same k t args : is_op k = true -> match rebuild k t args with Ok (Node _ t' _) => ty_eqb t' t | _ => false end = true ->
    rebuild k t args = Ok (Node k t args).
  Proof.
    intros K H. destruct (rebuild k t args) as [e|] eqn:E; [|discriminate H]. destruct (rebuild_op _ _ _ _ K E) as [t' ->].
    apply ty_eqb_eq in H. subst. reflexivity.
  Qed.

  Theorem readable_round e : readable F V e = true -> round e.
  Proof.
    induction e as [a|k t args IH] using expr_ind'; intros P; [discriminate P|].
    destruct k; cbn [readable] in P; try discriminate P.
    - (* Var *)
      destruct args as [|[[x| | |]|] [|]]; try discriminate P. apply andb_true_iff in P. destruct P as [N D].
      destruct (match dget F x with Some t => Some t | None => dget V x end) as [t'|] eqn:E; [|discriminate D]. apply ty_eqb_eq in D. subst t'.
      split; [repeat eexists|]. split.
      + exists x. split; [reflexivity|]. apply reads_word. unfold ros_name in N. apply andb_true_iff in N. destruct N as [N _]. apply andb_true_iff in N. tauto.
      + cbn [rtree to_expr]. apply read_name; assumption.
    - (* Lit *)
      destruct args as [|[[|z|b|]|] [|]]; try discriminate P; apply ty_eqb_eq in P; subst t.
      + split; [repeat eexists|]. split.
        * exists (string_of_Z z). split; [reflexivity|]. apply reads_word, Z_word.
        * cbn [rtree]. change (lit_text TInt (PInt z)) with (string_of_Z z). cbn [to_expr]. apply read_Z.
      + split; [repeat eexists|]. split.
        * exists (if b then "true" else "false"). split; [destruct b; reflexivity|]. destruct b; apply reads_word; reflexivity.
        * destruct b; reflexivity.
    - (* Add *) apply andb_true_iff in P. destruct P as [P B]. pose proof (forallb_Forall _ _ _ _ IH P) as Fl. apply rebuild_same in B; [|reflexivity].
      apply (op_round KAdd t args "+" (mkArithN KAdd)); solve [reflexivity|discriminate|assumption].
    - (* Sub *) apply andb_true_iff in P. destruct P as [P B]. pose proof (forallb_Forall _ _ _ _ IH P) as Fl. apply rebuild_same in B; [|reflexivity].
      apply (op_round KSub t args "-" (mkArith2 KSub)); solve [reflexivity|discriminate|assumption].
    - (* Mul *) apply andb_true_iff in P. destruct P as [P B]. pose proof (forallb_Forall _ _ _ _ IH P) as Fl. apply rebuild_same in B; [|reflexivity].
      apply (op_round KMul t args "*" (mkArithN KMul)); solve [reflexivity|discriminate|assumption].
    - (* Div *) apply andb_true_iff in P. destruct P as [P B]. pose proof (forallb_Forall _ _ _ _ IH P) as Fl. apply rebuild_same in B; [|reflexivity].
      apply (op_round KDiv t args "quotient-noerr" (mkArith2 KDiv)); solve [reflexivity|discriminate|assumption].
    - (* Mod *) apply andb_true_iff in P. destruct P as [P B]. pose proof (forallb_Forall _ _ _ _ IH P) as Fl. apply rebuild_same in B; [|reflexivity].
      apply (op_round KMod t args "remainder" (mkArith2 KMod)); solve [reflexivity|discriminate|assumption].
    - (* Eq *) apply andb_true_iff in P. destruct P as [P B]. pose proof (forallb_Forall _ _ _ _ IH P) as Fl. apply rebuild_same in B; [|reflexivity].
      cbn [rebuild] in B. destruct (round_args args Fl) as [Ns [[ss [M Rs]] Ts]].
      destruct args as [|a [|b [|]]]; try discriminate B. pose proof B as B'. injection B' as Bt. subst t.
      assert (A : exists ta, type_of a = Ok ta /\ ty_of a = ta) by (inversion Ns as [|? ? [ka [ta [la Ea]]] Ns']; subst a; exists ta; split; reflexivity).
      destruct A as [ta [A1 A2]].
      split; [repeat eexists|]. cbn [rtree]. rewrite A2.
      split.
      + exists (ros_simple (if is_set ta then "set-eq" else "equal?") ss). split.
        * change (to_rosette (Node KEq TBool [a; b])) with (ta <- type_of a ;; ss <- mapR to_rosette [a; b] ;; Ok (ros_simple (if is_set ta then "set-eq" else "equal?") ss)).
          rewrite A1. cbn [bindR]. rewrite M. reflexivity.
        * apply (simple_print _ ss (a :: b :: nil)); [destruct (is_set ta); reflexivity|exact Rs].
      + destruct (is_set ta).
        * cbn [map] in Ts |- *. injection Ts as T1 T2.
          change (read (SL [SA "set-eq"; rtree a; rtree b])) with (a <- read (rtree a) ;; b <- read (rtree b) ;; mkEq [a; b]).
          rewrite T1, T2. reflexivity.
        * rewrite (op_call "equal?" mkEq _ eq_refl eq_refl eq_refl), Ts, first_ok. exact B.
    - (* Lt *) apply andb_true_iff in P. destruct P as [P B]. pose proof (forallb_Forall _ _ _ _ IH P) as Fl. apply rebuild_same in B; [|reflexivity].
      apply (op_round KLt t args "<" (mkCmp KLt)); solve [reflexivity|discriminate|assumption].
    - (* Le *) apply andb_true_iff in P. destruct P as [P B]. pose proof (forallb_Forall _ _ _ _ IH P) as Fl. apply rebuild_same in B; [|reflexivity].
      apply (op_round KLe t args "<=" (mkCmp KLe)); solve [reflexivity|discriminate|assumption].
    - (* Gt *) apply andb_true_iff in P. destruct P as [P B]. pose proof (forallb_Forall _ _ _ _ IH P) as Fl. apply rebuild_same in B; [|reflexivity].
      apply (op_round KGt t args ">" (mkCmp KGt)); solve [reflexivity|discriminate|assumption].
    - (* Ge *) apply andb_true_iff in P. destruct P as [P B]. pose proof (forallb_Forall _ _ _ _ IH P) as Fl. apply rebuild_same in B; [|reflexivity].
      apply (op_round KGe t args ">=" (mkCmp KGe)); solve [reflexivity|discriminate|assumption].
    - (* And *) apply andb_true_iff in P. destruct P as [P B]. pose proof (forallb_Forall _ _ _ _ IH P) as Fl. apply rebuild_same in B; [|reflexivity].
      apply (op_round KAnd t args "&&" (mkBoolN KAnd)); solve [reflexivity|discriminate|assumption].
    - (* Or *) apply andb_true_iff in P. destruct P as [P B]. pose proof (forallb_Forall _ _ _ _ IH P) as Fl. apply rebuild_same in B; [|reflexivity].
      apply (op_round KOr t args "or" (mkBoolN KOr)); solve [reflexivity|discriminate|assumption].
    - (* Not *) apply andb_true_iff in P. destruct P as [P B]. pose proof (forallb_Forall _ _ _ _ IH P) as Fl. apply rebuild_same in B; [|reflexivity].
      cbn [rebuild] in B. destruct (round_args args Fl) as [Ns [[ss [M Rs]] Ts]]. destruct args as [|a [|]]; try discriminate B.
      split; [repeat eexists|]. split.
      + exists (ros_simple "!" ss). split; [cbn [to_rosette ros_op]; rewrite M; reflexivity|]. apply (simple_print "!" ss [a]); [reflexivity|exact Rs].
      + cbn [map] in Ts. injection Ts as T1. change (read (rtree (Node KNot t [a]))) with (e <- read (rtree a) ;; mkNot [e]). rewrite T1. exact B.
    - (* Implies *) apply andb_true_iff in P. destruct P as [P B]. pose proof (forallb_Forall _ _ _ _ IH P) as Fl. apply rebuild_same in B; [|reflexivity].
      apply (op_round KImplies t args "=>" mkImplies); solve [reflexivity|discriminate|assumption].
    - (* Ite *) apply andb_true_iff in P. destruct P as [P B]. pose proof (forallb_Forall _ _ _ _ IH P) as Fl. apply rebuild_same in B; [|reflexivity].
      cbn [rebuild] in B. destruct (round_args args Fl) as [Ns [[ss [M Rs]] Ts]]. destruct args as [|c [|a [|b [|]]]]; try discriminate B.
      split; [repeat eexists|]. split.
      + exists (ros_simple "if" ss). split; [cbn [to_rosette ros_op]; rewrite M; reflexivity|]. apply (simple_print "if" ss [c; a; b]); [reflexivity|exact Rs].
      + cbn [map] in Ts. injection Ts as T1 T2 T3.
        change (read (rtree (Node KIte t [c; a; b]))) with (a <- read (rtree a) ;; b <- read (rtree b) ;; c <- read (rtree c) ;; mkIte [c; a; b]).
        rewrite T1, T2, T3. exact B.
    - (* Call *) destruct args as [|[[f| | |]|] l]; try discriminate P. apply andb_true_iff in P. destruct P as [P C].
      inversion IH as [|? ? _ IH']; subst. pose proof (forallb_Forall _ _ _ _ IH' P) as Fl.
      destruct (call_type F f (map ty_of l)) as [t'|] eqn:CT; [|discriminate C]. apply ty_eqb_eq in C. subst t'.
      destruct (round_args l Fl) as [Ns [[ss [M Rs]] Ts]]. destruct (call_ok f l t CT Ns) as [W [PR RD]].
      split; [repeat eexists|]. cbn [rtree]. split.
      + destruct (PR ss M) as [s [E S0]]. exists s. split; [exact E|]. apply (styles_reads _ ss); assumption.
      + apply RD. exact Ts.
    - (* TupleExpr *) apply andb_true_iff in P. destruct P as [P C]. pose proof (forallb_Forall _ _ _ _ IH P) as Fl. apply ty_eqb_eq in C. subst t.
      destruct (round_args args Fl) as [Ns [[ss [M Rs]] Ts]]. split; [repeat eexists|]. cbn [rtree]. split.
      + eexists. split; [cbn [to_rosette ros_op]; rewrite M; cbn [bindR]; reflexivity|]. apply (reads_call "make-tuple" ss); [reflexivity|exact Rs].
      + rewrite tuple_call, Ts, first_ok. cbn [bindR]. unfold mkTupleExpr.
        assert (X : mapR type_of args = Ok (map ty_of args)).
        { clear - Ns. induction Ns as [|e l [k [t [a ->]]] N IH]; [reflexivity|]. cbn [mapR type_of bindR]. rewrite IH. reflexivity. }
        rewrite X. reflexivity.
  Qed.
End Read.
