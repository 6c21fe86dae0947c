(** C12: what is printed for Rosette is read back. *)

From Coq Require Import String Ascii List ZArith Bool Lia.
From Verif Require Import Ast Dict UtilProofs SynthModel SexpModel SexpProofs SmtPrint SmtPrintProofs RosPrint RosText RosProofs.
Import ListNotations.
Local Open Scope string_scope.
Local Open Scope list_scope.

(** ** one definition

    The text that Rosette prints for a definition may be laid out in any way: [text] has
    the same words and parentheses as "(define (name parameters) expression)". *)
Definition definition (n : string) (xs : list string) (s : string) : string :=
  ("(define (" ++ join " " (n :: xs) ++ ") " ++ s ++ ")")%string.

Lemma reads_words xs : forallb word xs = true -> Forall2 reads xs (map toks (map SA xs)).
Proof.
  induction xs as [|x xs IH]; cbn [forallb map]; intros H; constructor; apply andb_true_iff in H; destruct H; auto.
  apply reads_word. assumption.
Qed.
Lemma definition_tokens n xs s t : word n = true -> forallb word xs = true -> reads s (toks t) ->
  tokens (definition n xs s) = toks (SL [SA "define"; SL (SA n :: map SA xs); t]).
Proof.
  intros N X R. apply tokens_reads.
  pose proof (reads_call n xs (map SA xs) N (reads_words xs X)) as H.
  pose proof (reads_call "define" [_; s] [_; t] eq_refl (Forall2_cons _ _ H (Forall2_cons _ _ R (Forall2_nil _)))) as Y.
  refine (eq_ind _ (fun w => reads w _) Y _ _). unfold definition. cbn [join]. repeat (rewrite !app_s; cbn [String.append]). reflexivity.
Qed.

(** Full statement (false): for every expression.  Missing: [let] expressions, functions
    as values, and calls whose types are not those the reader assigns; see the
    counterexamples below. *)
Theorem C12_roundtrip_partial F V e :
  readable F V e = true ->
  exists s, to_rosette e = Ok s /\
    forall n xs text, word n = true -> forallb word xs = true ->
      tokens text = tokens (definition n xs s) ->
      exists d, generate_ast text = Some [d] /\ to_expr F V d = Ok e.
Proof.
  intros R. destruct (readable_round F V e R) as [_ [[s [P RS]] T]]. exists s. split; [exact P|].
  intros n xs text N X TX. exists (SL [SA "define"; SL (SA n :: map SA xs); rtree e]). split.
  - unfold generate_ast. rewrite TX, (definition_tokens n xs s (rtree e) N X RS).
    pose proof (parse_lists false [SL [SA "define"; SL (SA n :: map SA xs); rtree e]] [] eq_refl) as Q.
    cbn [flat_map app rev] in Q. rewrite app_nil_r in Q. exact Q.
  - exact T.
Qed.
Print Assumptions C12_roundtrip_partial.

(** Different expressions have different texts. *)
Theorem C12_unambiguous_partial F V e e' s :
  readable F V e = true -> readable F V e' = true -> to_rosette e = Ok s -> to_rosette e' = Ok s -> e = e'.
Proof.
  intros R R' P P'.
  destruct (C12_roundtrip_partial F V e R) as [s1 [E1 H1]]. destruct (C12_roundtrip_partial F V e' R') as [s2 [E2 H2]].
  rewrite P in E1. injection E1 as <-. rewrite P' in E2. injection E2 as <-.
  destruct (H1 "f" [] _ eq_refl eq_refl eq_refl) as [d [A B]]. destruct (H2 "f" [] _ eq_refl eq_refl eq_refl) as [d' [A' B']].
  rewrite A in A'. injection A' as <-. rewrite B in B'. injection B' as <-. reflexivity.
Qed.
Print Assumptions C12_unambiguous_partial.

(** ** a solution file

    A block of the file: the line with the place in the program, then the lines of the
    definition of [b_name] as [b_expr]. *)
Record block := { b_name : string; b_params : list string; b_expr : expr; b_place : string; b_head : string; b_tail : list string }.
Definition b_text (b : block) : string := String.concat "" (b_head b :: b_tail b).
Definition b_lines (b : block) : list string := b_place b :: b_head b :: b_tail b.

Record block_ok (F : dict ty) (V : string -> dict ty) (b : block) : Prop := {
  ok_place : contains "/" (b_place b) = true /\ contains "define" (b_place b) = false;
  ok_head : contains "define" (b_head b) = true;
  ok_tail : forall l, In l (b_tail b) -> contains "/" l = false /\ contains "define" l = false;
  ok_words : word (b_name b) = true /\ forallb word (b_params b) = true;
  ok_expr : readable F (V (b_name b)) (b_expr b) = true;
  (* the definition, behind something without a parenthesis (a quote); its name is
     followed by a blank or a parenthesis *)
  ok_text : forall s, to_rosette (b_expr b) = Ok s ->
    exists q c rest, b_text b = (q ++ "(define (" ++ b_name b ++ String c rest)%string /\ (c = " " \/ c = ")")%char /\
      from_paren q = None /\
      tokens ("(define (" ++ b_name b ++ String c rest)%string = tokens (definition (b_name b) (b_params b) s)
}.

(** the text of [b] does not look like a definition of [n] *)
Definition other_name (b : block) (n : string) : Prop :=
  contains ("define (" ++ n ++ " ") (b_text b) = false /\ contains ("define (" ++ n ++ ")") (b_text b) = false.

Lemma until_tail tl rest : (forall l, In l tl -> contains "/" l = false) ->
  until_slash (tl ++ rest) = (String.concat "" tl ++ until_slash rest)%string.
Proof.
  induction tl as [|l tl IH]; intros H; [reflexivity|]. cbn [app until_slash]. rewrite (H l (or_introl eq_refl)), IH by (intros; apply H; right; assumption).
  rewrite concat_cons, app_s. reflexivity.
Qed.
Lemma parse_skip tl rest : (forall l, In l tl -> contains "define" l = false) -> parse_output (tl ++ rest) = parse_output rest.
Proof.
  induction tl as [|l tl IH]; intros H; [reflexivity|]. cbn [app parse_output]. rewrite (H l (or_introl eq_refl)). apply IH. intros; apply H; right; assumption.
Qed.
Lemma app_empty (s : string) : (s ++ "" = s)%string.
Proof. induction s; cbn; congruence. Qed.

Lemma parse_blocks F V bs : Forall (block_ok F V) bs -> parse_output (flat_map b_lines bs) = map b_text bs /\ until_slash (flat_map b_lines bs) = "".
Proof.
  induction 1 as [|b bs B Fb [IH U]]; [split; reflexivity|].
  destruct B as [[P1 P2] H T _ _ _]. cbn [flat_map b_lines app]. split.
  - cbn [parse_output map]. rewrite P2, H. f_equal.
    + rewrite until_tail by (intros; apply T; assumption). rewrite U, app_empty. unfold b_text. rewrite concat_cons. reflexivity.
    + rewrite parse_skip by (intros; apply T; assumption). exact IH.
  - cbn [until_slash]. rewrite P1. reflexivity.
Qed.

Lemma prefix_app p : forall s, String.prefix p (p ++ s)%string = true.
Proof. induction p as [|c p IH]; intros s; [destruct s; reflexivity|]. cbn. destruct (ascii_dec c c); [apply IH|congruence]. Qed.
Lemma index_mid p : forall a b, exists n, String.index 0 p (a ++ p ++ b)%string = Some n.
Proof.
  intros a b. induction a as [|c a [n IH]].
  - cbn [String.append]. exists 0. destruct (p ++ b)%string as [|c s] eqn:E.
    + destruct p; [reflexivity|discriminate E].
    + cbn [String.index]. rewrite <- E, prefix_app. reflexivity.
  - change (String c a ++ p ++ b)%string with (String c (a ++ p ++ b))%string. cbn [String.index].
    destruct (String.prefix _ _); [eauto|]. rewrite IH. eauto.
Qed.
Lemma contains_mid p a b : contains p (a ++ p ++ b)%string = true.
Proof. unfold contains. destruct (index_mid p a b) as [n ->]. reflexivity. Qed.
Lemma paren_skip q : forall r, from_paren q = None -> from_paren (q ++ String "(" r)%string = Some (String "(" r).
Proof.
  induction q as [|c q IH]; intros r H; [reflexivity|]. cbn [from_paren String.append] in *. destruct (Ascii.eqb c "("); [discriminate H|]. auto.
Qed.

Lemma block_read F V b : block_ok F V b ->
  (contains ("define (" ++ b_name b ++ " ") (b_text b) || contains ("define (" ++ b_name b ++ ")") (b_text b))%bool = true /\
  read_definition F (V (b_name b)) (b_text b) = Ok (b_expr b).
Proof.
  intros [_ _ _ [W1 W2] R T]. destruct (C12_roundtrip_partial _ _ _ R) as [s [P H]].
  destruct (T s P) as [q [c [rest [E [C [Q TK]]]]]]. split.
  - apply orb_true_iff. rewrite E. destruct C as [-> | ->]; [left|right].
    + pose proof (contains_mid ("define (" ++ b_name b ++ " ") (q ++ "(") rest) as X.
      refine (eq_ind _ (fun t => contains _ t = true) X _ _). repeat (rewrite !app_s; cbn [String.append]). reflexivity.
    + pose proof (contains_mid ("define (" ++ b_name b ++ ")") (q ++ "(") rest) as X.
      refine (eq_ind _ (fun t => contains _ t = true) X _ _). repeat (rewrite !app_s; cbn [String.append]). reflexivity.
  - destruct (H (b_name b) (b_params b) _ W1 W2 TK) as [d [G D]]. unfold read_definition. rewrite E.
    change ("(define (" ++ b_name b ++ String c rest)%string with (String "(" ("define (" ++ b_name b ++ String c rest)) in *.
    rewrite (paren_skip q _ Q), G. exact D.
Qed.

Section Candidates.
  Variable F : dict ty.
  Variable V : string -> dict ty.
  Notation rd := (fun n r => read_definition F (V n) r).

  (** reading the outputs for one name *)
  Definition step n (acc : res (dict expr)) r :=
    d <- acc ;; if (contains ("define (" ++ n ++ " ") r || contains ("define (" ++ n ++ ")") r)%bool
                then e <- rd n r ;; Ok (dset d n e) else Ok d.

  Lemma skip_others n bs d : (forall b, In b bs -> other_name b n) -> fold_left (step n) (map b_text bs) (Ok d) = Ok d.
  Proof.
    revert d. induction bs as [|b bs IH]; intros d H; [reflexivity|]. cbn [map fold_left]. unfold step at 2. cbn [bindR].
    destruct (H b (or_introl eq_refl)) as [-> ->]. cbn [orb]. apply IH. intros; apply H; right; assumption.
  Qed.
  Lemma one_name bs1 b bs2 d : block_ok F V b -> (forall b', In b' (bs1 ++ bs2) -> other_name b' (b_name b)) ->
    fold_left (step (b_name b)) (map b_text (bs1 ++ b :: bs2)) (Ok d) = Ok (dset d (b_name b) (b_expr b)).
  Proof.
    intros B H. rewrite map_app, fold_left_app. rewrite skip_others by (intros; apply H; apply in_or_app; auto).
    cbn [map fold_left]. unfold step at 2. cbn [bindR]. destruct (block_read F V b B) as [C R]. rewrite C, R. cbn [bindR].
    apply skip_others. intros; apply H; apply in_or_app; auto.
  Qed.

  (** Every function gets the expression that was printed for it. *)
Theorem C12_file_partial bs :
    Forall (block_ok F V) bs -> NoDup (map b_name bs) ->
    (forall b b', In b bs -> In b' bs -> b_name b' <> b_name b -> other_name b' (b_name b)) ->
    exists d, candidate_dict rd (map b_name bs) (parse_output (flat_map b_lines bs)) = Ok d /\
      forall b, In b bs -> dget d (b_name b) = Some (b_expr b).
  Proof.
    intros B N O. rewrite (proj1 (parse_blocks F V bs B)). unfold candidate_dict. fold step.
    assert (G : forall done rest d0, bs = done ++ rest -> (forall b, In b done -> dget d0 (b_name b) = Some (b_expr b)) ->
      exists d, fold_left (fun acc n => fold_left (step n) (map b_text bs) acc) (map b_name rest) (Ok d0) = Ok d /\
        forall b, In b bs -> dget d (b_name b) = Some (b_expr b)).
    2: { apply (G [] bs []); [reflexivity|intros b []]. }
    intros done rest. revert done. induction rest as [|b rest IH]; intros done d0 E D.
    - exists d0. split; [reflexivity|]. intros b I0. apply D. rewrite E, app_nil_r in I0. exact I0.
    - cbn [map fold_left].
      assert (IB : In b bs) by (rewrite E; apply in_elt).
      assert (NE : forall b', In b' (done ++ rest) -> b_name b' <> b_name b).
      { intros b' I0 X. rewrite E, map_app in N. cbn [map] in N. apply NoDup_remove_2 in N. apply N. rewrite <- map_app, <- X. apply in_map. exact I0. }
      assert (S1 : fold_left (step (b_name b)) (map b_text bs) (Ok d0) = Ok (dset d0 (b_name b) (b_expr b))).
      { rewrite E. apply one_name.
        - apply (proj1 (Forall_forall _ _) B). exact IB.
        - intros b' I0. apply O; [exact IB| |apply NE; exact I0]. rewrite E. apply in_app_or in I0. apply in_or_app. destruct I0; [auto|right; right; assumption]. }
      rewrite S1. apply (IH (done ++ [b])); [rewrite <- app_assoc; exact E|].
      intros b' I0. apply in_app_or in I0. destruct I0 as [I0|[<-|[]]].
      + rewrite dget_dset. destruct (String.eqb_spec (b_name b') (b_name b)) as [X|_]; [|apply D; exact I0]. exfalso. apply (NE b'); [apply in_or_app; auto|exact X].
      + rewrite dget_dset, String.eqb_refl. reflexivity.
  Qed.
End Candidates.
Print Assumptions C12_file_partial.

(** ** a case that meets the hypotheses *)
Definition x_ := mkVar "x" TInt.
Definition l_ := mkVar "xs" (TList TInt).
Definition s_ := mkVar "s" (TSet TInt).
Definition call t f l := Node KCall t (Atom (PStr f) :: l).
Definition fns : dict ty := [("f", TFn [TInt; TInt; TList TInt]); ("inv0", TFn [TBool; TInt; TList TInt]); ("list_sum", TFn [TInt; TList TInt])].
Definition vars (n : string) : dict ty := [("x", TInt); ("xs", TList TInt); ("s", TSet TInt)].
Definition e1 : expr :=
  Node KIte TInt
    [ Node KAnd TBool [ Node KNot TBool [Node KLt TBool [x_; IntLit (-3)]];
                        Node KEq TBool [call (TSet TInt) "set-union" [s_; call (TSet TInt) "set-singleton" [x_]]; s_];
                        call TBool "inv0" [x_; l_] ];
      Node KSub TInt [call TInt "list_get" [call (TList TInt) "list_tail" [l_; IntLit 1]; x_]; call TInt "f" [x_; l_]];
      Node KMul TInt [IntLit 12; x_; call TInt "list_sum" [call (TList TInt) "list_prepend" [x_; call (TList TInt) "list_empty" []]]] ].
Example C12_example_text :
  to_rosette e1 =
  Ok ("(if (&& (! (< x -3 ) ) (set-eq (set-union s (set-singleton x)) s ) ( inv0 x xs ) ) (- (list-ref-noerr (list-tail-noerr xs 1 ) x ) (f x xs) ) " ++
      "(* 12 x (list_sum (list-prepend x (list-empty ) ) ) ) )")%string.
Proof. vm_compute. reflexivity. Qed.
Example C12_example : readable fns (vars "f") e1 = true.
Proof. vm_compute. reflexivity. Qed.

(** A file as Rosette writes it. *)
Definition blk1 : block :=
  {| b_name := "inv0"; b_params := ["x"; "xs"]; b_expr := Node KLe TBool [x_; call TInt "list_length" [l_]];
     b_place := "/tmp/test.rkt:12:0"; b_head := "'(define (inv0 x xs)"; b_tail := ["   (<= x (length xs)))"] |}.
Definition blk2 : block :=
  {| b_name := "ps"; b_params := ["xs"]; b_expr := e1;
     b_place := "/tmp/test.rkt:20:0"; b_head := "'(define (ps xs)";
     b_tail := ["   (if (&& (! (< x -3)) (set-eq (set-union s (set-singleton x)) s)"; "           (inv0 x xs))";
                "     (- (list-ref-noerr (list-tail-noerr xs 1) x) (f x xs))";
                "     (* 12 x (list_sum (list-prepend x (list-empty))))))"; ""] |}.
Example C12_example_file :
  exists d, candidate_dict (fun n r => read_definition fns (vars n) r) ["inv0"; "ps"] (parse_output (b_lines blk1 ++ b_lines blk2)) = Ok d /\
    dget d "ps" = Some e1 /\ dget d "inv0" = Some (b_expr blk1).
Proof.
  assert (B1 : block_ok fns vars blk1).
  { constructor; try (split; vm_compute; reflexivity); try (vm_compute; reflexivity).
    - intros l [<-|[]]; split; vm_compute; reflexivity.
    - intros s E. vm_compute in E. injection E as <-. exists "'", " "%char.
      exists "x xs)   (<= x (length xs)))". split; [vm_compute; reflexivity|]. split; [left; reflexivity|]. split; vm_compute; reflexivity. }
  assert (B2 : block_ok fns vars blk2).
  { constructor; try (split; vm_compute; reflexivity); try (vm_compute; reflexivity).
    - intros l [<-|[<-|[<-|[<-|[<-|[]]]]]]; split; vm_compute; reflexivity.
    - intros s E. vm_compute in E. injection E as <-. exists "'", " "%char.
      exists (sdrop 13 (b_text blk2)). split; [vm_compute; reflexivity|]. split; [left; reflexivity|]. split; vm_compute; reflexivity. }
  assert (X : flat_map b_lines [blk1; blk2] = b_lines blk1 ++ b_lines blk2) by reflexivity. rewrite <- X.
  destruct (C12_file_partial fns vars [blk1; blk2]) as [d [E G]].
  - constructor; [exact B1|constructor; [exact B2|constructor]].
  - cbn. constructor; [intros [E|[]]; discriminate E|]. constructor; [intros []|constructor].
  - intros b b' [<-|[<-|[]]] [<-|[<-|[]]] N; try (exfalso; apply N; reflexivity); split; vm_compute; reflexivity.
  - exists d. split; [exact E|]. split; [apply (G blk2)|apply (G blk1)]; cbn; auto.
Qed.
Print Assumptions C12_example_file.

(** ** counterexamples to the full statement

    [roundtrip F V e]: what is read from the printed definition. *)
Definition roundtrip (F V : dict ty) (e : expr) : res expr :=
  s <- to_rosette e ;; read_definition F V (definition "f" ["x"] s).

(** Appending to a list is printed, but its branch of the reader calls a function that
    does not exist (synthesize_rosette.py:173): for all operands the solution is
    refused. *)
Theorem C12_refuted_append F V t a b : readable F V a = true -> readable F V b = true ->
  roundtrip F V (call t "list_append" [a; b]) = Err ExAttr.
Proof.
  intros A B. destruct (readable_round F V a A) as [_ [[sa [PA RA]] _]]. destruct (readable_round F V b B) as [_ [[sb [PB RB]] _]].
  unfold roundtrip, call.
  change (to_rosette (Node KCall t [Atom (PStr "list_append"); a; b])) with (ss <- mapR to_rosette [a; b] ;; Ok (ros_simple "list-append" ss)).
  cbn [mapR]. rewrite PA. cbn [bindR]. rewrite PB. cbn [bindR].
  pose proof (styles_reads "list-append" [sa; sb] _ [rtree a; rtree b] (or_intror (or_introl eq_refl)) eq_refl
               (Forall2_cons _ _ RA (Forall2_cons _ _ RB (Forall2_nil _)))) as R.
  pose proof (definition_tokens "f" ["x"] _ _ eq_refl eq_refl R) as T.
  unfold read_definition. change (from_paren (definition "f" ["x"] (ros_simple "list-append" [sa; sb]))) with (Some (definition "f" ["x"] (ros_simple "list-append" [sa; sb]))).
  unfold generate_ast. rewrite T.
  pose proof (parse_lists false [SL [SA "define"; SL (SA "f" :: map SA ["x"]); SL [SA "list-append"; rtree a; rtree b]]] [] eq_refl) as Q.
  cbn [flat_map app rev] in Q. rewrite app_nil_r in Q. rewrite Q. reflexivity.
Qed.
Print Assumptions C12_refuted_append.

(** [let] is printed with brackets, which the reader takes as part of the words: with a
    variable [y] in scope, another expression is read without any error. *)
Definition y_ := mkVar "y" TInt.
Theorem C12_refuted_let :
  exists e', roundtrip [] [("x", TInt); ("y", TInt)] (Node KLet TInt [y_; IntLit 5; Node KAdd TInt [y_; x_]]) = Ok e' /\
    e' = Node KLet TInt [mkVar "[" TInt; y_; Node KAdd TInt [y_; x_]].
Proof. eexists. split; [|reflexivity]. vm_compute. reflexivity. Qed.
Print Assumptions C12_refuted_let.

(** With parentheses instead of the brackets, [let] is read back as it should: the
    variable is known, with the type of its value, in the body. *)
Theorem C12_let_partial F V x a b :
  word x = true -> readable F V a = true -> readable F (dset V x (ty_of a)) b = true ->
  exists sa sb, to_rosette a = Ok sa /\ to_rosette b = Ok sb /\
    forall n xs text, word n = true -> forallb word xs = true ->
      tokens text = tokens (definition n xs ("(let ((" ++ x ++ " " ++ sa ++ ")) " ++ sb ++ ")")) ->
      exists d, generate_ast text = Some [d] /\ to_expr F V d = Ok (Node KLet (ty_of b) [mkVar x (ty_of a); a; b]).
Proof.
  intros W RA RB.
  destruct (readable_round F V a RA) as [[ka [ta [la NA]]] [[sa [PA SA_]] TA]].
  destruct (readable_round F _ b RB) as [[kb [tb [lb NB]]] [[sb [PB SB]] TB]].
  exists sa, sb. split; [exact PA|]. split; [exact PB|]. intros n xs text N X TX.
  set (t := SL [SA "let"; SL [SL [SA x; rtree a]]; rtree b]).
  assert (R : reads ("(let ((" ++ x ++ " " ++ sa ++ ")) " ++ sb ++ ")") (toks t)).
  { pose proof (reads_call x [sa] [rtree a] W (Forall2_cons _ _ SA_ (Forall2_nil _))) as H1.
    assert (H2 : reads (String "(" (("(" ++ join " " [x; sa] ++ ")") ++ ")")) (toks (SL [SL [SA x; rtree a]]))).
    { pose proof (reads_paren _ _ H1) as H2. refine (eq_ind _ (fun ts => reads _ ts) H2 _ _). cbn [toks flat_map]. rewrite !app_nil_r. reflexivity. }
    pose proof (reads_call "let" [_; sb] [SL [SL [SA x; rtree a]]; rtree b] eq_refl
                  (Forall2_cons _ _ H2 (Forall2_cons _ _ SB (Forall2_nil _)))) as Y.
    refine (eq_ind _ (fun w => reads w _) Y _ _). cbn [join]. repeat (rewrite !app_s; cbn [String.append]). reflexivity. }
  exists (SL [SA "define"; SL (SA n :: map SA xs); t]). split.
  - unfold generate_ast. rewrite TX, (definition_tokens n xs _ t N X R).
    pose proof (parse_lists false [SL [SA "define"; SL (SA n :: map SA xs); t]] [] eq_refl) as Q.
    cbn [flat_map app rev] in Q. rewrite app_nil_r in Q. exact Q.
  - change (to_expr F V (SL [SA "define"; SL (SA n :: map SA xs); t])) with
      (va <- to_expr F V (rtree a) ;; u <- type_of va ;; vb <- to_expr F (dset V x u) (rtree b) ;; mkLet [mkVar x u; va; vb]).
    rewrite TA. cbn [bindR]. assert (Ta : type_of a = Ok (ty_of a)) by (subst a; reflexivity). rewrite Ta. cbn [bindR].
    rewrite TB. cbn [bindR mkLet]. assert (Tb : type_of b = Ok (ty_of b)) by (subst b; reflexivity). rewrite Tb. reflexivity.
Qed.
Print Assumptions C12_let_partial.
Example C12_let_nontrivial : word "y" = true /\ readable [] [("x", TInt)] (Node KAdd TInt [x_; IntLit 5]) = true /\
  readable [] (dset [("x", TInt)] "y" (ty_of (Node KAdd TInt [x_; IntLit 5]))) (Node KMul TInt [y_; x_]) = true /\
  readable [] [("x", TInt)] (Node KMul TInt [y_; x_]) = false.
Proof. repeat split. Qed.

(** The row of a matrix gets the type of an element, so an element of a row is refused. *)
Theorem C12_refuted_matrix :
  roundtrip [] [("m", TMatrix TInt); ("x", TInt)]
    (call TInt "list_get" [call (TList TInt) "matrix_get" [mkVar "m" (TMatrix TInt); x_]; x_]) = Err ExIndex.
Proof. vm_compute. reflexivity. Qed.
Print Assumptions C12_refuted_matrix.
(** The empty matrix comes back with another type. *)
Theorem C12_refuted_type :
  roundtrip [] [] (call (TMatrix TInt) "matrix_empty" []) = Ok (call (TList (TList TInt)) "matrix_empty" []).
Proof. vm_compute. reflexivity. Qed.
Print Assumptions C12_refuted_type.
(** Slices of tensors are printed but not read. *)
Theorem C12_refuted_slice :
  roundtrip [] [("t", TTensor3D TInt)] (call (TTensor3D TInt) "tensor3d_slice" [mkVar "t" (TTensor3D TInt); IntLit 0; IntLit 2]) = Err ExNYI.
Proof. vm_compute. reflexivity. Qed.
Print Assumptions C12_refuted_slice.
