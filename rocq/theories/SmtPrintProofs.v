(** Proofs about SmtPrint.v. *)

From Coq Require Import String Ascii List ZArith Bool Lia.
From Verif Require Import Ast Semantics Dict SexpModel SexpProofs SmtPrint SmtText.
Import ListNotations.
Local Open Scope string_scope.
Local Open Scope list_scope.

Lemma smt_op_ok k : smt_op k = op_sym k.
Proof. destruct k; reflexivity. Qed.
Lemma op_word k o : op_sym k = Some o -> word o = true.
Proof. destruct k; cbn; intros E; try discriminate E; injection E as <-; reflexivity. Qed.
Lemma sdrop_skip n : forall s, sdrop n s = skip n s.
Proof. induction n; destruct s; cbn; auto. Qed.
Lemma all_word_app a b : all_word (a ++ b) = all_word a && all_word b.
Proof. induction a; cbn; [reflexivity|]. rewrite IHa, andb_assoc. reflexivity. Qed.
Lemma all_word_skip n : forall s, all_word s = true -> all_word (skip n s) = true.
Proof. induction n; destruct s; cbn; auto. intros H. apply andb_true_iff in H. apply IHn. tauto. Qed.
Lemma word_all s : word s = true -> all_word s = true.
Proof. unfold word. intros H. apply andb_true_iff in H. tauto. Qed.

Lemma symbol_word x : symbol x = true -> word x = true.
Proof. unfold symbol. intros H. do 4 (apply andb_true_iff in H; destruct H as [H _]). exact H. Qed.
Lemma var_word x : var_name x = true -> word x = true.
Proof. unfold var_name. intros H. apply andb_true_iff in H. destruct H as [H _]. apply symbol_word. exact H. Qed.
Lemma tuple_word n : word (tuple_name n) = true.
Proof. unfold tuple_name, word. cbn. apply (word_all _ (nat_word n)). Qed.
Lemma get_word n i : word (get_name n i) = true.
Proof. unfold get_name, word. cbn. rewrite all_word_app. rewrite (word_all _ (nat_word n)). cbn. apply (word_all _ (Z_word i)). Qed.
Lemma smt_name_word f : word f = true -> word (smt_name f) = true.
Proof.
  intros W. unfold smt_name. destruct (pre "set-" f); [|destruct (pre "map-" f); [|exact W]];
    unfold word; cbn -[skip]; apply all_word_skip, word_all, W.
Qed.
Lemma lit_text_ok t a v : lit_val t a = Some v -> lit_text t a = lit_word t a /\ word (lit_word t a) = true.
Proof.
  unfold lit_text, lit_word. destruct t, a as [s|z|b|]; cbn [lit_val ty_eqb str_atom truthy]; intros E; try discriminate E; split; auto.
  - apply Z_word.
  - destruct (z =? 0)%Z; reflexivity.
  - destruct b; reflexivity.
Qed.

(** ** lists of texts *)
Lemma reads_join ss tss : Forall2 reads ss tss -> reads (join " " ss) (concat tss).
Proof.
  induction 1 as [|s ts ss tss H F IH]; [apply reads_nil|].
  cbn [join concat]. destruct ss as [|s2 ss].
  - inversion F; subst. cbn [concat]. rewrite app_nil_r. exact H.
  - apply reads_space; assumption.
Qed.
(** a parenthesis around a word and texts *)
Lemma reads_list w ss tss : reads w [TW w] -> Forall2 reads ss tss ->
  reads (String "(" (w ++ String " " (join " " ss ++ ")"))) (TL :: TW w :: concat tss ++ [TR]).
Proof.
  intros W F.
  replace (w ++ String " " (join " " ss ++ ")"))%string with ((w ++ String " " (join " " ss)) ++ ")")%string
    by (rewrite app_s; reflexivity).
  refine (reads_paren _ (TW w :: concat tss) _). refine (reads_space w (join " " ss) [TW w] (concat tss) W _).
  apply reads_join. exact F.
Qed.
Lemma toks_list w l : TL :: TW w :: concat (map toks l) ++ [TR] = toks (SL (SA w :: l)).
Proof. cbn. rewrite flat_map_concat_map. reflexivity. Qed.

Lemma mapR_reads l : Forall (fun e => exists s, to_smt e = Ok s /\ reads s (toks (tree e))) l ->
  exists ss, mapR to_smt l = Ok ss /\ Forall2 reads ss (map toks (map tree l)).
Proof.
  induction 1 as [|e l [s [E R]] F [ss [M IH]]].
  - exists []. split; [reflexivity|constructor].
  - exists (s :: ss). cbn. rewrite E. cbn. rewrite M. split; [reflexivity|]. constructor; assumption.
Qed.

(** ** types *)
Lemma smt_type_ok t : forall s, sort_tree t = Some s -> exists w, smt_type t = Ok w /\ reads w (toks s).
Proof.
  assert (one : forall w s, reads w (toks s) -> reads ("(MLList " ++ w ++ ")") (toks (SL [SA "MLList"; s]))).
  { intros w s R. refine (reads_list "MLList" [w] [toks s] (reads_word "MLList" eq_refl) _). repeat constructor. exact R. }
  induction t using ty_ind'; intros s E; cbn [sort_tree] in E; try discriminate E.
  - injection E as <-. exists "Int". split; [reflexivity|]. apply reads_word. reflexivity.
  - injection E as <-. exists "Bool". split; [reflexivity|]. apply reads_word. reflexivity.
  - destruct (sort_tree t) as [s'|]; [|discriminate E]. injection E as <-. destruct (IHt _ eq_refl) as [w [W R]].
    exists ("(MLList " ++ w ++ ")")%string. cbn [smt_type]. rewrite W. split; [reflexivity|]. apply one. exact R.
  - destruct (sort_tree t) as [s'|]; [|discriminate E]. injection E as <-. destruct (IHt _ eq_refl) as [w [W R]].
    exists ("(MLList (MLList " ++ w ++ "))")%string. cbn [smt_type]. rewrite W. split; [reflexivity|].
    pose proof (one _ _ (one _ _ R)) as X. cbn [String.append] in X |- *. rewrite app_s in X. exact X.
  - destruct (sort_tree t) as [s'|]; [|discriminate E]. injection E as <-. destruct (IHt _ eq_refl) as [w [W R]].
    exists ("(MLList " ++ w ++ ")")%string. cbn [smt_type]. rewrite W. split; [reflexivity|]. apply one. exact R.
  - destruct (sort_tree t) as [s'|]; [|discriminate E]. injection E as <-. destruct (IHt _ eq_refl) as [w [W R]].
    exists ("(Set " ++ w ++ ")")%string. cbn [smt_type]. rewrite W. split; [reflexivity|].
    refine (reads_list "Set" [w] [toks s'] (reads_word "Set" eq_refl) _). repeat constructor. exact R.
  - destruct (mapO sort_tree ts) as [l|] eqn:M; [|discriminate E]. injection E as <-. cbn [smt_type].
    assert (X : exists ss, mapR smt_type ts = Ok ss /\ Forall2 reads ss (map toks l)).
    { clear - H M. revert l M. induction H as [|t ts Ht F IH]; cbn; intros l M.
      - injection M as <-. exists []. split; [reflexivity|constructor].
      - destruct (sort_tree t) as [s|]; [|discriminate M]. destruct (mapO sort_tree ts) as [l'|]; [|discriminate M]. injection M as <-.
        destruct (Ht _ eq_refl) as [w [W R]]. destruct (IH _ eq_refl) as [ss [S' R']]. rewrite W. cbn. rewrite S'.
        exists (w :: ss). split; [reflexivity|]. constructor; assumption. }
    destruct X as [ss [X1 X2]]. rewrite X1. cbn. eexists. split; [reflexivity|].
    pose proof (reads_list ("Tuple" ++ string_of_nat (List.length ts))%string ss (map toks l)) as Y.
    rewrite flat_map_concat_map.
    refine (reads_eq _ _ _ (Y (reads_word _ _) X2) eq_refl).
    unfold word. cbn. apply (word_all _ (nat_word _)).
Qed.

(** ** expressions *)
Section Exprs.
  Variable fn : string -> bool.
  Notation plain := (plain fn).

  Lemma is_var_inv e : is_var fn e = true -> exists k t x, e = Node k t [Atom (PStr x)] /\ (k = KVar \/ k = KNonTerm) /\ var_name x = true /\ fn x = false.
  Proof.
    destruct e as [a|k t args]; [discriminate|]. cbn.
    destruct k; try discriminate; destruct args as [|[[x| | |]|] [|]]; try discriminate; intros H;
      apply andb_true_iff in H; destruct H as [H1 H2]; apply negb_true_iff in H2; eauto 10.
  Qed.
  Lemma is_var_reads e : is_var fn e = true -> to_smt e = Ok (name_of e) /\ reads (name_of e) [TW (name_of e)].
  Proof.
    intros H. destruct (is_var_inv e H) as [k [t [x [-> [[-> | ->] [V _]]]]]]; cbn; split; auto; apply reads_word, var_word, V.
  Qed.

  Lemma not_renamed x : renamed x = false ->
    String.eqb x "make-tuple" = false /\ String.eqb x "tupleGet" = false /\ starts "set-" x = false /\ starts "map-" x = false /\ String.eqb x "list_eq" = false.
  Proof.
    unfold renamed. cbn [smem existsb]. intros H. apply orb_false_iff in H. destruct H as [H1 H2]. apply orb_false_iff in H1.
    destruct H1 as [H1 H3]. apply orb_false_iff in H2. destruct H2 as [H2 H4]. apply orb_false_iff in H4. destruct H4 as [H4 H5].
    apply orb_false_iff in H5. destruct H5 as [H5 _]. unfold starts, pre in *. tauto.
  Qed.

  (** an argument of a call is printed as itself *)
  Lemma arg_word c a rest : plain a = true -> call_word c a rest = None.
  Proof.
    intros P. destruct a as [p|k t args]; [discriminate P|].
    assert (D : arg_str (Node k t args) = "(" \/ is_var fn (Node k t args) = true /\ arg_str (Node k t args) = name_of (Node k t args)).
    { destruct k; auto; right; cbn in P |- *; destruct args as [|[[x| | |]|] [|]]; try discriminate P; auto. }
    unfold call_word. destruct D as [-> | [V ->]].
    - cbn. destruct c; reflexivity.
    - destruct (is_var_inv _ V) as [k' [t' [x [E [_ [N _]]]]]]. injection E as <- <- ->. cbn [name_of].
      apply andb_true_iff in N. destruct N as [_ N]. apply negb_true_iff in N. apply not_renamed in N.
      destruct N as [-> [-> [-> [-> ->]]]]. rewrite andb_false_r. reflexivity.
  Qed.

  Lemma words_args c l : Forall (fun e => exists s, to_smt e = Ok s /\ reads s (toks (tree e))) l -> forallb plain l = true ->
    exists ss, call_words to_smt c false l = Ok ss /\ Forall2 reads ss (map toks (map tree l)).
  Proof.
    induction 1 as [|e l [s [E R]] F IH]; intros P.
    - exists []. split; [reflexivity|constructor].
    - cbn [forallb] in P. apply andb_true_iff in P. destruct P as [P1 P2]. destruct (IH P2) as [ss [M R']].
      exists (s :: ss). cbn [call_words andb]. rewrite (arg_word c e l P1). destruct e; [discriminate P1|]. rewrite E. cbn. rewrite M.
      split; [reflexivity|]. constructor; assumption.
  Qed.

  Lemma join_cons w ss : ss <> [] -> join " " (w :: ss) = (w ++ String " " (join " " ss))%string.
  Proof. destruct ss; [congruence|reflexivity]. Qed.

  (** a call that is printed as a word and its arguments *)
  Lemma reads_call w ss l : word w = true -> Forall2 reads ss (map toks l) ->
    reads ("(" ++ join " " (w :: ss) ++ ")") (toks (SL (SA w :: l))).
  Proof.
    intros W F. rewrite <- toks_list. destruct ss as [|s ss].
    - inversion F as [X Y|]. cbn. refine (reads_paren w [TW w] (reads_word w W)).
    - rewrite join_cons by discriminate. cbn [String.append]. rewrite app_s.
      exact (reads_list w (s :: ss) _ (reads_word w W) F).
  Qed.

  Lemma forallb_Forall A (p : A -> bool) (Q : A -> Prop) l : Forall (fun x => p x = true -> Q x) l -> forallb p l = true -> Forall Q l.
  Proof.
    induction 1 as [|x l H F IH]; intros P; [constructor|]. cbn in P. apply andb_true_iff in P. destruct P. constructor; auto.
  Qed.

  Lemma tuple_size_get e n ix t : plain e = true -> tuple_size e = Some n -> tuple_get_name e (Node KLit t [Atom (PInt ix)]) = Ok (get_name n ix).
  Proof.
    unfold tuple_size, tuple_get_name, get_name.
    destruct e as [a|k ty args]; [discriminate|]. intros P.
    assert (V : is_var fn (Node k ty args) = true -> named args "make-tuple" = false).
    { intros V. destruct (is_var_inv _ V) as [k' [t' [x [E [_ [N _]]]]]]. injection E as <- <- ->. cbn.
      apply andb_true_iff in N. destruct N as [_ N]. apply negb_true_iff in N. apply not_renamed in N. tauto. }
    destruct k; try discriminate.
    - destruct ty; try discriminate. intros E. injection E as <-. rewrite (V P). reflexivity.
    - destruct ty; try discriminate. intros E. injection E as <-. rewrite (V P). reflexivity.
    - destruct args as [|[[f| | |]|] r]; try discriminate. cbn [named]. destruct (String.eqb f "make-tuple"); [|discriminate].
      intros E. injection E as <-. cbn [List.length]. rewrite Nat.sub_succ, Nat.sub_0_r. reflexivity.
    - destruct args as [|[[f| | |]|] r]; try discriminate. cbn [named]. destruct (String.eqb f "make-tuple"); [|discriminate].
      intros E. injection E as <-. cbn [List.length]. rewrite Nat.sub_succ, Nat.sub_0_r. reflexivity.
    - intros E. injection E as <-. reflexivity.
  Qed.

  Definition prints (e : expr) : Prop := exists s, to_smt e = Ok s /\ reads s (toks (tree e)).

  (** the words of a call *)
  Lemma name_words c f l w ss : call_word c (Atom (PStr f)) l = Some (Ok w) -> call_words to_smt c false l = Ok ss ->
    call_words to_smt c false (Atom (PStr f) :: l) = Ok (w :: ss).
  Proof. intros E M. cbn [call_words andb]. rewrite E. cbn. rewrite M. reflexivity. Qed.

  Lemma call_prints k t f l : k = KCall \/ k = KTargetCall -> fn f = true -> call_ok f t l = true -> forallb plain l = true ->
    Forall prints l -> prints (Node k t (Atom (PStr f) :: l)).
  Proof.
    intros K Fn C P F.
    destruct (words_args true l F P) as [ss [M R]].
    assert (D : op_sym k = None) by (destruct K as [-> | ->]; reflexivity).
    assert (G : forall s, to_smt (Node k t (Atom (PStr f) :: l)) = s -> to_smt (Node KCall t (Atom (PStr f) :: l)) = s).
    { intros s. destruct K as [-> | ->]; auto. }
    assert (T : tree (Node k t (Atom (PStr f) :: l)) = tree (Node KCall t (Atom (PStr f) :: l))) by (destruct K as [-> | ->]; reflexivity).
    assert (X : to_smt (Node k t (Atom (PStr f) :: l)) = to_smt (Node KCall t (Atom (PStr f) :: l))) by (destruct K as [-> | ->]; reflexivity).
    unfold prints. rewrite T, X. clear G X T D K. cbn [to_smt tree smt_op op_sym find_op ops kind_eqb named].
    unfold call_ok in C. cbn [andb].
    destruct (String.eqb_spec f "set-create") as [-> | N1].
    { destruct l as [|]; [|discriminate C]. destruct (sort_tree t) as [s|] eqn:S0; [|discriminate C].
      destruct (smt_type_ok t s S0) as [w [W Rw]]. rewrite W. cbn [bindR]. eexists. split; [reflexivity|].
      refine (reads_list "as" ["set.empty"; w] [[TW "set.empty"]; toks s] (reads_word "as" eq_refl) _).
      repeat constructor; [|exact Rw]. apply reads_word. reflexivity. }
    destruct (String.eqb_spec f "make-tuple") as [-> | N2].
    { cbn [orb] in C. change (String.eqb "make-tuple" "tupleGet") with false. rewrite (name_words true "make-tuple" l (tuple_name (List.length l)) ss eq_refl M). cbn [bindR].
      destruct l as [|a l]; [discriminate C|]. eexists. split; [reflexivity|]. apply reads_call; [apply tuple_word|exact R]. }
    destruct (String.eqb_spec f "list_eq") as [-> | N3].
    { cbn [orb] in C. change (String.eqb "list_eq" "tupleGet") with false. rewrite (name_words true "list_eq" l "=" ss eq_refl M). cbn [bindR].
      destruct l as [|a l]; [discriminate C|]. eexists. split; [reflexivity|]. apply reads_call; [reflexivity|exact R]. }
    cbn [orb] in C.
    destruct (String.eqb_spec f "tupleGet") as [-> | N4].
    { destruct l as [|e [|[|[] [] [|[[|i| |]|] [|]]] [|]]]; try discriminate C.
      destruct (tuple_size e) as [n|] eqn:S0; [|discriminate C].
      cbn [forallb] in P. apply andb_true_iff in P. destruct P as [P _].
      cbn [call_words andb]. cbn [call_word arg_str str_atom String.eqb Ascii.eqb Bool.eqb andb].
      rewrite (tuple_size_get e n i TInt P S0). cbn [bindR].
      rewrite (arg_word true e _ P). inversion F as [|? ? [s [E1 E2]] F']; subst. destruct e; [discriminate P|]. rewrite E1. cbn [bindR].
      eexists. split; [reflexivity|]. apply (reads_call (get_name n i) [s] [_]); [apply get_word|]. repeat constructor. exact E2. }
    assert (W : word f = true /\ call_word true (Atom (PStr f)) l = Some (Ok (smt_name f))).
    { unfold call_word, smt_name, starts, pre in *. cbn [arg_str str_atom]. rewrite (proj2 (String.eqb_neq _ _) N2), (proj2 (String.eqb_neq _ _) N3), (proj2 (String.eqb_neq _ _) N4).
      rewrite sdrop_skip. destruct (String.prefix "set-" f); [auto|]. destruct (String.prefix "map-" f); [auto|].
      cbn [orb] in C. split; [apply symbol_word, C|reflexivity]. }
    destruct W as [W E]. rewrite (name_words true f l _ ss E M). cbn [bindR].
    destruct l as [|a l].
    - injection M as <-. eexists. split; [reflexivity|]. apply reads_word, smt_name_word, W.
    - eexists. split; [reflexivity|]. apply reads_call; [apply smt_name_word, W|exact R].
  Qed.

  Theorem prints_tree e : plain e = true -> prints e.
  Proof.
    induction e as [a|k t args IH] using expr_ind'; intros P; [discriminate P|].
    cbn [SmtText.plain] in P. destruct (op_sym k) as [o|] eqn:O.
    - pose proof (forallb_Forall _ _ _ _ IH P) as F. destruct (mapR_reads args F) as [ss [M R]].
      unfold prints. cbn [to_smt tree]. rewrite smt_op_ok, O, M. cbn [bindR]. eexists. split; [reflexivity|].
      rewrite <- toks_list. apply reads_list; [|exact R]. apply reads_word, (op_word k), O.
    - destruct k; try discriminate P; try discriminate O.
      + destruct (is_var_reads _ P) as [E R]. eexists. split; [exact E|exact R].
      + destruct (is_var_reads _ P) as [E R]. eexists. split; [exact E|exact R].
      + destruct args as [|[a|] [|]]; try discriminate P. destruct (lit_val t a) as [v|] eqn:V; [|discriminate P].
        destruct (lit_text_ok t a v V) as [E W]. eexists. split; [reflexivity|]. rewrite E. apply reads_word, W.
      + destruct args as [|v [|a [|b [|]]]]; try discriminate P.
        apply andb_true_iff in P. destruct P as [P Pb]. apply andb_true_iff in P. destruct P as [Pv Pa].
        inversion IH as [|? ? _ IH']; subst. inversion IH' as [|? ? Ha IH'']; subst. inversion IH'' as [|? ? Hb _]; subst.
        destruct (is_var_reads _ Pv) as [Ev Rv]. destruct (Ha Pa) as [sa [Ea Ra]]. destruct (Hb Pb) as [sb [Eb Rb]].
        unfold prints. cbn [to_smt tree smt_op op_sym find_op ops kind_eqb]. rewrite Ev, Ea, Eb. cbn [bindR]. eexists. split; [reflexivity|].
        assert (X : reads ("(" ++ ("(" ++ name_of v ++ " " ++ sa ++ ")") ++ ")") (toks (SL [SL [SA (name_of v); tree a]]))).
        { cbn [toks flat_map]. rewrite app_nil_r. apply (reads_paren _ (toks (SL [SA (name_of v); tree a]))).
          rewrite <- toks_list. refine (reads_list (name_of v) [sa] [toks (tree a)] Rv _). repeat constructor. exact Ra. }
        pose proof (reads_list "let" [_; sb] [_; toks (tree b)] (reads_word "let" eq_refl) (Forall2_cons _ _ X (Forall2_cons _ _ Rb (Forall2_nil _)))) as Y.
        refine (reads_eq _ _ _ (eq_ind _ (fun s => reads s _) Y _ _) _).
        * cbn [join String.append]. repeat (rewrite !app_s; cbn [String.append]). reflexivity.
        * cbn [concat toks flat_map]. rewrite !app_nil_r, <- !app_assoc. reflexivity.
      + destruct args as [|[[f| | |]|] l]; try discriminate P. apply andb_true_iff in P. destruct P as [P Pl]. apply andb_true_iff in P. destruct P as [Pf Pc].
        inversion IH as [|? ? _ IH']; subst. apply call_prints; auto. exact (forallb_Forall _ _ _ _ IH' Pl).
      + destruct args as [|[[f| | |]|] l]; try discriminate P. apply andb_true_iff in P. destruct P as [P Pl]. apply andb_true_iff in P. destruct P as [Pf Pc].
        inversion IH as [|? ? _ IH']; subst. apply call_prints; auto. exact (forallb_Forall _ _ _ _ IH' Pl).
      + destruct args as [|v l]; [discriminate P|]. apply andb_true_iff in P. destruct P as [Pv Pl].
        inversion IH as [|? ? _ IH']; subst. destruct (words_args false l (forallb_Forall _ _ _ _ IH' Pl) Pl) as [ss [M R]].
        destruct (is_var_reads _ Pv) as [Ev Rv].
        assert (Pv' : plain v = true) by (destruct (is_var_inv _ Pv) as [k' [t' [x [-> [[-> | ->] _]]]]]; exact Pv).
        assert (N : named (v :: l) "tupleGet" = false) by (destruct v; [discriminate Pv|reflexivity]).
        exists ("(" ++ join " " (name_of v :: ss) ++ ")")%string. split.
        * change (to_smt (Node KCallValue t (v :: l))) with
            (ws <- call_words to_smt false (named (v :: l) "tupleGet") (v :: l) ;; Ok ("(" ++ join " " ws ++ ")")%string).
          rewrite N. cbn [call_words andb]. rewrite (arg_word false v l Pv'). destruct v; [discriminate Pv|]. rewrite Ev. cbn [bindR].
          rewrite M. reflexivity.
        * apply reads_call; [|exact R]. destruct (is_var_inv _ Pv) as [k' [t' [x [-> [_ [N' _]]]]]]. apply var_word, N'.
      + pose proof (forallb_Forall _ _ _ _ IH P) as F. destruct (mapR_reads args F) as [ss [M R]].
        unfold prints. cbn [to_smt tree smt_op op_sym find_op ops kind_eqb]. rewrite M. cbn [bindR]. eexists. split; [reflexivity|].
        rewrite <- toks_list. pose proof (reads_list (tuple_name (List.length args)) ss _ (reads_word _ (tuple_word _)) R) as Y.
        refine (eq_ind _ (fun s => reads s _) Y _ _). unfold tuple_name. rewrite !app_s. reflexivity.
  Qed.
End Exprs.
