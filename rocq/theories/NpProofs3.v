(** Proofs for C45: the texts of the expressions. *)

From Coq Require Import String Ascii List ZArith Bool Lia.
From Verif Require Import Ast Semantics Dict SexpModel SexpProofs SmtPrint SmtText PyGram PyParse PyText PyMean RktModel LibSem NpModel NpSem NpProofs NpProofs2.
Import ListNotations.
Local Open Scope string_scope.
Local Open Scope list_scope.

Ltac strs := repeat (rewrite !app_s; cbn [String.append]); reflexivity.
(** ** tokens *)
Lemma lexes_str p tks u us : (forall s, lex "" (p ++ s) = tks ++ lex "" s) -> lexes u us -> lexes (p ++ u) (tks ++ us).
Proof. intros P B rest R. rewrite app_s, P, (B rest R), app_assoc. reflexivity. Qed.
Lemma lexes_paren s ts : lexes s ts -> lexes ("(" ++ s ++ ")") (LP :: ts ++ [RP]).
Proof. intros X. apply (lexes_op "(" _ _ eq_refl). apply lexes_cat; [exact X|apply (lexes_end ")"); reflexivity|reflexivity|discriminate]. Qed.
Lemma lexes_infix x tx y ty op tk : sep_tok op tk -> lexes x tx -> lexes y ty ->
  lexes ("(" ++ x ++ ")" ++ op ++ "(" ++ y ++ ")") ((LP :: tx ++ [RP]) ++ tk :: LP :: ty ++ [RP]).
Proof.
  intros S0 A B. replace ("(" ++ x ++ ")" ++ op ++ "(" ++ y ++ ")")%string with (("(" ++ x ++ ")") ++ op ++ ("(" ++ y ++ ")"))%string by strs.
  apply lexes_sep; [exact S0|apply lexes_paren, A|apply lexes_paren, B].
Qed.
Definition np_head (g : string) : list tok := [TName "np"; Dot; TName g; LP].
Definition np_start (g : string) : Prop := forall s, lex "" (("np." ++ g ++ "(") ++ s) = np_head g ++ lex "" s.
Lemma lexes_np g ss tss : np_start g -> Forall2 lexes ss tss -> lexes (("np." ++ g ++ "(") ++ join ", " ss ++ ")") (np_head g ++ tjoin Comma tss ++ [RP]).
Proof.
  intros S0 F. apply lexes_str; [exact S0|]. apply lexes_cat; [|apply (lexes_end ")"); reflexivity|reflexivity|discriminate].
  apply (lexes_join ", "); [apply sep_comma|exact F].
Qed.
Ltac npstart := intros [|? ?]; reflexivity.

(** ** operators *)
Definition bin_of (k : kind) : bin := match k with KAdd => OAdd | KSub => OSub | KMul => OMul | KDiv => OFloor | _ => OMod end.
Definition bin_tok (o : bin) : tok :=
  match o with OAdd => Plus | OSub => Minus | OMul => Star | OFloor => SSlash | OMod => Percent | ODiv => Slash end.
Lemma op_sep o : sep_tok (op_text o) (bin_tok o).
Proof. destruct o; sept. Qed.
Definition op_level (o : bin) : nat := match o with OAdd | OSub => 5 | _ => 6 end.
Lemma reads_infix o ta a tb b : at_level 0 ta a -> at_level 0 tb b ->
  reads (op_level o) ((LP :: ta ++ [RP]) ++ bin_tok o :: LP :: tb ++ [RP]) (PBin o a b).
Proof.
  intros A B. assert (X : (o = OAdd \/ o = OSub) \/ op_level o = 6 /\ term_of (bin_tok o) = Some o) by (destruct o; auto).
  destruct X as [X|[-> T]].
  - assert (T : sum_of (bin_tok o) = Some o /\ op_level o = 5) by (destruct X; subst; auto). destruct T as [T ->]. apply reads5.
    apply sum_open_bin; [exact T|apply open_of_term|]; apply level_paren; try lia; assumption.
  - apply reads_lt; [lia|lia|]. apply level_term; [exact T|..]; apply level_paren; try lia; assumption.
Qed.
Definition cmp_of_kind (k : kind) : cmp := match k with KEq => OEq | KLt => OLt | KLe => OLe | KGt => OGt | _ => OGe end.
Definition cmp_tok (k : kind) : tok := match k with KEq => CEq | KLt => CLt | KLe => CLe | KGt => CGt | _ => CGe end.
Definition np_cmp (k : kind) : string :=
  match k with KEq => "equal" | KLt => "less" | KLe => "less_equal" | KGt => "greater" | _ => "greater_equal" end.

(** variables that are not replaced *)
Definition fresh (e : expr) (vs : list (string * expr)) : Prop := forall x, In x (var_names e) -> dget vs x = None.
Lemma fresh_nil e : fresh e [].
Proof. intros x _. reflexivity. Qed.
Lemma fresh_arg k t args a vs : k <> KVar -> In a args -> fresh (Node k t args) vs -> fresh a vs.
Proof.
  intros K I F x Hx. apply F. assert (X : var_names (Node k t args) = flat_map var_names args) by (destruct k; try reflexivity; congruence).
  rewrite X. apply in_flat_map. eauto.
Qed.

Section Text.
  Variables (fns : list (string * expr)) (d : dtype).
  Hypothesis Dint : is_float d = false.

  (** the text of [e], its tokens and how they are read *)
  Definition txt (vs : list (string * expr)) (e : expr) (t : ty) (l : nat) (p : pexp) : Prop :=
    exists N s ts, (forall n, N <= n -> helper fns d n e vs = Ok (s, Some t)) /\ lexes s ts /\ reads l ts p.

  Lemma txt_var vs x t : py_name x = true -> dget vs x = None -> txt vs (var x t) t 8 (PName x).
  Proof.
    intros Nx E. exists 2, x, [TName x]. split; [|split; [exact (proj1 (word_name x Nx))|apply reads8; [reflexivity|apply opened_name]]].
    intros n L. destruct n as [|[|n]]; [lia|lia|]. unfold var. cbn [helper mapR bindR np_arith np_rel]. rewrite E. reflexivity.
  Qed.
  (** a variable that is replaced *)
  Lemma txt_repl vs x t e te l p : dget vs x = Some e -> txt vs e te l p -> txt vs (var x t) te l p.
  Proof.
    intros E [N [s [ts [H R]]]]. exists (S (S N)), s, ts. split; [|exact R].
    intros n L. destruct n as [|[|n]]; [lia|lia|]. unfold var. cbn [helper mapR bindR np_arith np_rel]. rewrite E. exact (H (S n) ltac:(lia)).
  Qed.
  Definition num_exp (z : Z) : pexp := if Z.ltb z 0 then PNeg (PNum (- z)) else PNum z.
  Lemma txt_lit vs z : txt vs (lit z) TInt 7 (num_exp z).
  Proof.
    unfold num_exp. destruct (Z.ltb z 0) eqn:E.
    - apply Z.ltb_lt in E. exists 2, (string_of_Z z), [Minus; TNum (- z)]. split; [|split; [exact (proj1 (word_neg z E))|apply reads_lt; [lia|lia|apply level_neg]]].
      intros n L. destruct n as [|[|n]]; [lia|lia|]. reflexivity.
    - apply Z.ltb_ge in E. exists 2, (string_of_Z z), [TNum z]. split; [|split; [exact (proj1 (word_num z E))|apply reads_lt; [lia|lia|apply level_num]]].
      intros n L. destruct n as [|[|n]]; [lia|lia|]. reflexivity.
  Qed.
  Lemma txt_blit vs b : txt vs (blit b) TBool 8 (PBoolE b).
  Proof.
    exists 2, (str_atom (PBool b)), [TBoolLit b]. split; [|split; [|apply reads8; [reflexivity|apply opened_bool]]].
    - intros n L. destruct n as [|[|n]]; [lia|lia|]. reflexivity.
    - destruct b; refine (lexes_word _ _ _); try reflexivity; discriminate.
  Qed.

  Lemma txt_arith vs k l t e f te le tf lf p q : arith_level k = Some l -> txt vs e te le p -> txt vs f tf lf q ->
    txt vs (Node k t [e; f]) (join_ty te tf) l (PBin (bin_of k) p q).
  Proof.
    intros K [N1 [s1 [t1 [H1 [X1 R1]]]]] [N2 [s2 [t2 [H2 [X2 R2]]]]].
    exists (S (N1 + N2)), ("(" ++ s1 ++ ")" ++ op_text (bin_of k) ++ "(" ++ s2 ++ ")")%string, ((LP :: t1 ++ [RP]) ++ bin_tok (bin_of k) :: LP :: t2 ++ [RP]).
    assert (J : np_ret [Some te; Some tf] = Ok (join_ty te tf)) by (destruct te, tf; reflexivity).
    split; [|split].
    - intros n L. destruct n as [|n]; [lia|]. destruct k; try discriminate K; cbn [helper mapR bindR]; rewrite (H1 n), (H2 n) by lia;
        cbn [bindR map fst snd np_arith nth_error]; rewrite ?Dint, J; reflexivity.
    - apply lexes_infix; [apply op_sep|exact X1|exact X2].
    - assert (Y : l = op_level (bin_of k)) by (destruct k; try discriminate K; injection K as <-; reflexivity). rewrite Y.
      apply reads_infix; [apply (reads_at 0 le _ _ R1)|apply (reads_at 0 lf _ _ R2)]; lia.
  Qed.
  Lemma txt_cmp vs k t e f le lf p q : is_cmp k = true -> txt vs e TInt le p -> txt vs f TInt lf q -> 5 <= le -> 5 <= lf ->
    txt vs (Node k t [e; f]) TBool 4 (PCmp p [(cmp_of_kind k, q)]).
  Proof.
    intros K [N1 [s1 [t1 [H1 [X1 R1]]]]] [N2 [s2 [t2 [H2 [X2 R2]]]]] L1 L2.
    assert (Z : exists op g, np_rel k = Some (op, g) /\ np_arith (is_float d) k = None /\ sep_tok op (cmp_tok k) /\ cmp_of (cmp_tok k) = Some (cmp_of_kind k)).
    { destruct k; try discriminate K; eexists _, _; (split; [reflexivity|]; split; [reflexivity|]; split; [sept|reflexivity]). }
    destruct Z as [op [g [Z1 [Z2 [Z3 Z4]]]]].
    exists (S (N1 + N2)), (s1 ++ op ++ s2)%string, (t1 ++ cmp_tok k :: t2). split; [|split].
    - intros n L. destruct n as [|n]; [lia|]. destruct k; try discriminate K; cbn [helper mapR bindR]; rewrite (H1 n), (H2 n) by lia;
        cbn [bindR map fst snd nth_error]; rewrite Z1, Z2; reflexivity.
    - apply lexes_sep; assumption.
    - apply reads_lt; [lia|lia|]. apply level_cmp; [exact Z4|apply (reads_at 5 le _ _ R1); lia|apply (reads_at 5 lf _ _ R2); lia].
  Qed.
  Lemma int_ty_dec t : {t = TInt} + {t <> TInt}.
  Proof. destruct t; (left; reflexivity) || (right; discriminate). Qed.
  Lemma txt_np2 g vs N1 s1 t1 N2 s2 t2 e f te le tf lf p q : np_start g ->
    (forall n, N1 <= n -> helper fns d n e vs = Ok (s1, Some te)) -> lexes s1 t1 -> reads le t1 p ->
    (forall n, N2 <= n -> helper fns d n f vs = Ok (s2, Some tf)) -> lexes s2 t2 -> reads lf t2 q ->
    lexes (("np." ++ g) ++ "(" ++ s1 ++ ", " ++ s2 ++ ")") (np_head g ++ (t1 ++ Comma :: t2) ++ [RP]) /\
    reads 8 (np_head g ++ (t1 ++ Comma :: t2) ++ [RP]) (PCall (np_fn g) [p; q]).
  Proof.
    intros G H1 X1 R1 H2 X2 R2. split.
    - assert (X := lexes_np g [s1; s2] [t1; t2] G ltac:(repeat constructor; assumption)). cbn [join tjoin] in X.
      replace (("np." ++ g) ++ "(" ++ s1 ++ ", " ++ s2 ++ ")")%string with (("np." ++ g ++ "(") ++ (s1 ++ ", " ++ s2) ++ ")")%string by strs. exact X.
    - apply reads8; [reflexivity|]. apply (opened_np g [(t1, p); (t2, q)]). constructor; [|constructor; [|constructor]]; cbn [fst snd];
        [apply (reads_at 0 le _ _ R1)|apply (reads_at 0 lf _ _ R2)]; lia.
  Qed.
  Lemma txt_cmps vs k t e f te le tf lf p q : is_cmp k = true -> txt vs e te le p -> txt vs f tf lf q -> te <> TInt \/ tf <> TInt ->
    txt vs (Node k t [e; f]) (TList TBool) 8 (PCall (np_fn (np_cmp k)) [p; q]).
  Proof.
    intros K [N1 [s1 [t1 [H1 [X1 R1]]]]] [N2 [s2 [t2 [H2 [X2 R2]]]]] NI.
    assert (Z : exists op, np_rel k = Some (op, ("np." ++ np_cmp k)%string) /\ np_arith (is_float d) k = None /\ np_start (np_cmp k)).
    { destruct k; try discriminate K; eexists; (split; [reflexivity|]; split; [reflexivity|npstart]). }
    destruct Z as [op [Z1 [Z2 Z3]]]. destruct (txt_np2 (np_cmp k) vs N1 s1 t1 N2 s2 t2 e f te le tf lf p q Z3 H1 X1 R1 H2 X2 R2) as [Y1 Y2].
    exists (S (N1 + N2)), (("np." ++ np_cmp k) ++ "(" ++ s1 ++ ", " ++ s2 ++ ")")%string, (np_head (np_cmp k) ++ (t1 ++ Comma :: t2) ++ [RP]). split; [|split; [exact Y1|exact Y2]].
    assert (NP : is_int (Some te) && (is_int (Some tf) && true) = false).
    { destruct NI as [NI|NI]; [destruct te|destruct tf]; try reflexivity; try congruence; destruct (is_int (Some te)); reflexivity. }
    intros n L. destruct n as [|n]; [lia|]. destruct k; try discriminate K; cbn [helper mapR bindR]; rewrite (H1 n), (H2 n) by lia;
      cbn [bindR map fst snd nth_error]; rewrite Z1, Z2; cbn [forallb]; rewrite NP; reflexivity.
  Qed.
  Lemma prim_ty t : is_prim (Some t) = prim t.
  Proof. destruct t; reflexivity. Qed.
  Lemma txt_and vs t e f te le tf lf p q : txt vs e te le p -> txt vs f tf lf q ->
    txt vs (Node KAnd t [e; f]) (if prim te && prim tf then TBool else TList TBool) (if prim te && prim tf then 2 else 8)
      (if prim te && prim tf then PAnd p q else PCall (np_fn "logical_and") [p; q]).
  Proof.
    intros [N1 [s1 [t1 [H1 [X1 R1]]]]] [N2 [s2 [t2 [H2 [X2 R2]]]]].
    destruct (txt_np2 "logical_and" vs N1 s1 t1 N2 s2 t2 e f te le tf lf p q ltac:(npstart) H1 X1 R1 H2 X2 R2) as [Y1 Y2].
    assert (Hn : forall n, S (N1 + N2) <= n -> helper fns d n (Node KAnd t [e; f]) vs =
      Ok (if prim te && prim tf then "(" ++ s1 ++ ") and (" ++ s2 ++ ")" else "np.logical_and(" ++ s1 ++ ", " ++ s2 ++ ")",
          Some (if prim te && prim tf then TBool else TList TBool))%string).
    { intros n L. destruct n as [|n]; [lia|]. cbn [helper mapR bindR]; rewrite (H1 n), (H2 n) by lia. cbn [bindR map fst snd nth_error np_arith np_rel forallb].
      rewrite !prim_ty, andb_true_r. destruct (prim te && prim tf); reflexivity. }
    destruct (prim te && prim tf).
    - exists (S (N1 + N2)), ("(" ++ s1 ++ ") and (" ++ s2 ++ ")")%string, ((LP :: t1 ++ [RP]) ++ KwAnd :: LP :: t2 ++ [RP]). split; [exact Hn|split].
      + change ("(" ++ s1 ++ ") and (" ++ s2 ++ ")")%string with ("(" ++ s1 ++ (")" ++ " and " ++ "(") ++ s2 ++ ")")%string.
        replace ("(" ++ s1 ++ (")" ++ " and " ++ "(") ++ s2 ++ ")")%string with ("(" ++ s1 ++ ")" ++ " and " ++ "(" ++ s2 ++ ")")%string by strs.
        apply lexes_infix; [sept|exact X1|exact X2].
      + apply reads_lt; [lia|lia|]. apply level_and; apply level_paren; try lia; [apply (reads_at 0 le _ _ R1)|apply (reads_at 0 lf _ _ R2)]; lia.
    - exists (S (N1 + N2)), ("np.logical_and(" ++ s1 ++ ", " ++ s2 ++ ")")%string, (np_head "logical_and" ++ (t1 ++ Comma :: t2) ++ [RP]). split; [exact Hn|split; [exact Y1|exact Y2]].
  Qed.
  Lemma txt_or vs t e f te le tf lf p q : txt vs e te le p -> txt vs f tf lf q ->
    txt vs (Node KOr t [e; f]) (if prim te && prim tf then TBool else TList TBool) (if prim te && prim tf then 1 else 8)
      (if prim te && prim tf then POr p q else PCall (np_fn "logical_or") [p; q]).
  Proof.
    intros [N1 [s1 [t1 [H1 [X1 R1]]]]] [N2 [s2 [t2 [H2 [X2 R2]]]]].
    destruct (txt_np2 "logical_or" vs N1 s1 t1 N2 s2 t2 e f te le tf lf p q ltac:(npstart) H1 X1 R1 H2 X2 R2) as [Y1 Y2].
    assert (Hn : forall n, S (N1 + N2) <= n -> helper fns d n (Node KOr t [e; f]) vs =
      Ok (if prim te && prim tf then "(" ++ s1 ++ ") or (" ++ s2 ++ ")" else "np.logical_or(" ++ s1 ++ ", " ++ s2 ++ ")",
          Some (if prim te && prim tf then TBool else TList TBool))%string).
    { intros n L. destruct n as [|n]; [lia|]. cbn [helper mapR bindR]; rewrite (H1 n), (H2 n) by lia. cbn [bindR map fst snd nth_error np_arith np_rel forallb].
      rewrite !prim_ty, andb_true_r. destruct (prim te && prim tf); reflexivity. }
    destruct (prim te && prim tf).
    - exists (S (N1 + N2)), ("(" ++ s1 ++ ") or (" ++ s2 ++ ")")%string, ((LP :: t1 ++ [RP]) ++ KwOr :: LP :: t2 ++ [RP]). split; [exact Hn|split].
      + change ("(" ++ s1 ++ ") or (" ++ s2 ++ ")")%string with ("(" ++ s1 ++ (")" ++ " or " ++ "(") ++ s2 ++ ")")%string.
        replace ("(" ++ s1 ++ (")" ++ " or " ++ "(") ++ s2 ++ ")")%string with ("(" ++ s1 ++ ")" ++ " or " ++ "(" ++ s2 ++ ")")%string by strs.
        apply lexes_infix; [sept|exact X1|exact X2].
      + apply reads_lt; [lia|lia|]. apply level_or; apply level_paren; try lia; [apply (reads_at 0 le _ _ R1)|apply (reads_at 0 lf _ _ R2)]; lia.
    - exists (S (N1 + N2)), ("np.logical_or(" ++ s1 ++ ", " ++ s2 ++ ")")%string, (np_head "logical_or" ++ (t1 ++ Comma :: t2) ++ [RP]). split; [exact Hn|split; [exact Y1|exact Y2]].
  Qed.
  Lemma txt_not vs t e te le p : txt vs e te le p -> prim te = true -> 3 <= le -> txt vs (Node KNot t [e]) TBool 3 (PNot p).
  Proof.
    intros [N1 [s1 [t1 [H1 [X1 R1]]]]] P L3. exists (S N1), ("not " ++ s1)%string, (KwNot :: t1). split; [|split].
    - intros n L. destruct n as [|n]; [lia|]. cbn [helper mapR bindR]; rewrite (H1 n) by lia. cbn [bindR map fst snd nth_error np_arith np_rel forallb]. rewrite prim_ty, P. reflexivity.
    - apply (lexes_pre "not " KwNot); [intros; reflexivity|exact X1].
    - apply reads_lt; [lia|lia|]. apply level_not, (reads_at 3 le _ _ R1 L3).
  Qed.
  Lemma txt_nots vs t e te le p : txt vs e te le p -> prim te = false -> txt vs (Node KNot t [e]) (TList TBool) 8 (PCall (np_fn "logical_not") [p]).
  Proof.
    intros [N1 [s1 [t1 [H1 [X1 R1]]]]] P. exists (S N1), ("np.logical_not(" ++ s1 ++ ")")%string, (np_head "logical_not" ++ t1 ++ [RP]). split; [|split].
    - intros n L. destruct n as [|n]; [lia|]. cbn [helper mapR bindR]; rewrite (H1 n) by lia. cbn [bindR map fst snd nth_error np_arith np_rel forallb]. rewrite prim_ty, P. reflexivity.
    - apply (lexes_np "logical_not" [s1] [t1]); [npstart|repeat constructor; assumption].
    - apply reads8; [reflexivity|]. apply (opened_np "logical_not" [(t1, p)]). repeat constructor. apply (reads_at 0 le _ _ R1). lia.
  Qed.

  (** conditionals: the text, or the text of one branch if the condition is a constant *)
  Lemma txt_ite t c a b u tc lc la lb pc pa pb : txt [] c tc lc pc -> 1 <= lc -> 1 <= la -> type_of a = Ok u ->
    exists p, (p = PCond pc pa pb \/ (pc = PBoolE true /\ p = pa) \/ (pc = PBoolE false /\ p = pb)) /\
      forall vs, txt vs a u la pa -> txt vs b u lb pb -> txt vs (Node KIte t [c; a; b]) u 0 p.
  Proof.
    intros [N0 [s0 [t0 [H0 [X0 R0]]]]] L0 L1 Ta.
    assert (B : forall bv, lexes s0 [TBoolLit bv] -> pc = PBoolE bv).
    { intros bv Y. assert (E : t0 = [TBoolLit bv]).
      { pose proof (X0 "" eq_refl) as A. pose proof (Y "" eq_refl) as A'. rewrite A' in A. cbn [lex flush] in A. rewrite !app_nil_r in A. symmetry. exact A. }
      subst t0. pose proof (reads_at 0 lc _ _ R0 (Nat.le_0_l _) [] Logic.I) as P1.
      pose proof (at_lower 0 8 _ _ (Nat.le_0_l _) (le_n _) (opened_level _ _ (opened_bool bv)) [] Logic.I) as P2.
      apply (parses_fun _ _ _ _ _ _ P1 P2). }
    assert (Low : forall l ts p, reads l ts p -> reads 0 ts p) by (intros l ts p R; apply reads_lt; [lia|lia|apply (reads_at 0 l _ _ R); lia]).
    destruct (String.eqb s0 "True") eqn:E1; [|destruct (String.eqb s0 "False") eqn:E2].
    - apply String.eqb_eq in E1. subst s0. exists pa. split; [right; left; split; [apply B; refine (lexes_word _ _ _); [reflexivity|discriminate]|reflexivity]|].
      intros vs [N1 [s1 [t1 [H1 [X1 R1]]]]] _. exists (S (N0 + N1)), s1, t1. split; [|split; [exact X1|exact (Low _ _ _ R1)]].
      intros n L. destruct n as [|n]; [lia|]. cbn [helper]. rewrite (H0 n) by lia. cbn [bindR fst]. apply H1. lia.
    - apply String.eqb_eq in E2. subst s0. exists pb. split; [right; right; split; [apply B; refine (lexes_word _ _ _); [reflexivity|discriminate]|reflexivity]|].
      intros vs _ [N2 [s2 [t2 [H2 [X2 R2]]]]]. exists (S (N0 + N2)), s2, t2. split; [|split; [exact X2|exact (Low _ _ _ R2)]].
      intros n L. destruct n as [|n]; [lia|]. cbn [helper]. rewrite (H0 n) by lia. cbn [bindR fst]. apply H2. lia.
    - exists (PCond pc pa pb). split; [left; reflexivity|]. intros vs [N1 [s1 [t1 [H1 [X1 R1]]]]] [N2 [s2 [t2 [H2 [X2 R2]]]]].
      exists (S (N0 + N1 + N2)), (s1 ++ " if " ++ s0 ++ " else " ++ s2)%string, (t1 ++ KwIf :: t0 ++ KwElse :: t2). split; [|split].
      + intros n L. destruct n as [|n]; [lia|]. cbn [helper]. rewrite (H0 n) by lia. cbn [bindR fst]. rewrite E1, E2, (H1 n), (H2 n), Ta by lia. reflexivity.
      + apply lexes_sep; [sept|exact X1|]. apply lexes_sep; [sept|exact X0|exact X2].
      + apply reads_lt; [lia|lia|]. apply level_cond; [apply (reads_at 1 la _ _ R1 L1)|apply (reads_at 1 lc _ _ R0 L0)|apply (reads_at 0 lb _ _ R2); lia].
  Qed.

  (** ** calls *)
  Definition plain_call (f : string) : Prop := ends_with "matrix_selection_two_args" f = false /\ smem f ["map_int_to_int"; "vec_map"] = false.
  Lemma call_text vs f t args ss N s : plain_call f -> Forall2 (fun a x => forall n, N <= n -> exists u, helper fns d n a vs = Ok (x, u)) args ss ->
    np_call true f ss = Some (Ok s) -> forall n, S N <= n -> helper fns d n (Node KCall t (Atom (PStr f) :: args)) vs = Ok (s, Some t).
  Proof.
    intros [P1 P2] F C n L. destruct n as [|n]; [lia|]. cbn [helper].
    assert (M : mapR (fun a => x <- helper fns d n a vs ;; Ok (fst x)) args = Ok ss).
    { clear C. induction F as [|a x args ss H F IH]; [reflexivity|]. cbn [mapR]. destruct (H n ltac:(lia)) as [u E]. rewrite E. cbn [bindR fst]. rewrite IH. reflexivity. }
    rewrite M. cbn [bindR]. rewrite P1, P2, Dint. cbn [negb]. rewrite C. reflexivity.
  Qed.
  Lemma helped vs e t l p N : txt vs e t l p -> exists N' s ts, (forall n, N + N' <= n -> exists u, helper fns d n e vs = Ok (s, u)) /\ lexes s ts /\ reads l ts p.
  Proof. intros [N1 [s [ts [H R]]]]. exists N1, s, ts. split; [|exact R]. intros n L. exists (Some t). apply H. lia. Qed.

  Lemma txt_infix vs f o swap t a b ta la tb lb p q : plain_call f -> np_infix true f = Some (op_text o, swap) ->
    txt vs a ta la p -> txt vs b tb lb q ->
    txt vs (Node KCall t [Atom (PStr f); a; b]) t (op_level o) (if swap then PBin o q p else PBin o p q).
  Proof.
    intros P C [N1 [s1 [t1 [H1 [X1 R1]]]]] [N2 [s2 [t2 [H2 [X2 R2]]]]].
    assert (A1 := reads_at 0 la _ _ R1 (Nat.le_0_l _)). assert (A2 := reads_at 0 lb _ _ R2 (Nat.le_0_l _)).
    assert (F : Forall2 (fun a x => forall n, N1 + N2 <= n -> exists u, helper fns d n a vs = Ok (x, u)) [a; b] [s1; s2]).
    { constructor; [|constructor; [|constructor]]; intros n L; eexists; [apply H1|apply H2]; lia. }
    destruct swap.
    - exists (S (N1 + N2)), ("(" ++ s2 ++ ")" ++ op_text o ++ "(" ++ s1 ++ ")")%string, ((LP :: t2 ++ [RP]) ++ bin_tok o :: LP :: t1 ++ [RP]). split; [|split].
      + apply (call_text vs f t [a; b] [s1; s2]); [exact P|exact F|]. unfold np_call. rewrite C. reflexivity.
      + apply lexes_infix; [apply op_sep|exact X2|exact X1].
      + apply reads_infix; assumption.
    - exists (S (N1 + N2)), ("(" ++ s1 ++ ")" ++ op_text o ++ "(" ++ s2 ++ ")")%string, ((LP :: t1 ++ [RP]) ++ bin_tok o :: LP :: t2 ++ [RP]). split; [|split].
      + apply (call_text vs f t [a; b] [s1; s2]); [exact P|exact F|]. unfold np_call. rewrite C. reflexivity.
      + apply lexes_infix; [apply op_sep|exact X1|exact X2].
      + apply reads_infix; assumption.
  Qed.
  Lemma txt_np1 vs f t a ta la p : smem f f_np1 = true -> txt vs a ta la p ->
    txt vs (Node KCall t [Atom (PStr f); a]) t 8 (PCall (np_fn (np1_text f)) [p]).
  Proof.
    intros Hf [N1 [s1 [t1 [H1 [X1 R1]]]]].
    exists (S N1), (("np." ++ np1_text f ++ "(") ++ s1 ++ ")")%string, (np_head (np1_text f) ++ t1 ++ [RP]).
    apply smem_in in Hf. split; [|split].
    - apply (call_text vs f t [a] [s1]).
      + unfold f_np1 in Hf. repeat (destruct Hf as [<-|Hf]); try (split; reflexivity). destruct Hf.
      + constructor; [|constructor]. intros n L. eexists. apply H1. lia.
      + unfold f_np1 in Hf. repeat (destruct Hf as [<-|Hf]); try reflexivity. destruct Hf.
    - apply (lexes_np _ [s1] [t1]); [|repeat constructor; assumption]. unfold f_np1 in Hf. repeat (destruct Hf as [<-|Hf]); try npstart. destruct Hf.
    - apply reads8; [reflexivity|]. apply (opened_np _ [(t1, p)]). repeat constructor. apply (reads_at 0 la _ _ R1). lia.
  Qed.
  Lemma txt_matmul vs t a b ta la tb lb p q : txt vs a ta la p -> txt vs b tb lb q ->
    txt vs (Node KCall t [Atom (PStr "matrix_vec_mul"); a; b]) t 8 (PCall (np_fn "matmul") [p; q]).
  Proof.
    intros [N1 [s1 [t1 [H1 [X1 R1]]]]] [N2 [s2 [t2 [H2 [X2 R2]]]]].
    destruct (txt_np2 "matmul" vs N1 s1 t1 N2 s2 t2 a b ta la tb lb p q ltac:(npstart) H1 X1 R1 H2 X2 R2) as [Y1 Y2].
    exists (S (N1 + N2)), ("np.matmul(" ++ s1 ++ ", " ++ s2 ++ ")")%string, (np_head "matmul" ++ (t1 ++ Comma :: t2) ++ [RP]). split; [|split; [exact Y1|exact Y2]].
    apply (call_text vs _ t [a; b] [s1; s2]); [split; reflexivity| |reflexivity].
    constructor; [|constructor; [|constructor]]; intros n L; eexists; [apply H1|apply H2]; lia.
  Qed.
  Lemma txt_append vs f t a b ta la tb lb p q : f = "list_append" \/ f = "matrix_append" -> txt vs a ta la p -> txt vs b tb lb q ->
    txt vs (Node KCall t [Atom (PStr f); a; b]) t 8
      (PCall (np_fn "concatenate") [PList [(false, p); (false, PCall (np_fn "expand_dims") [q; axis_kw])]; axis_kw]).
  Proof.
    intros Hf [N1 [s1 [t1 [H1 [X1 R1]]]]] [N2 [s2 [t2 [H2 [X2 R2]]]]].
    assert (A1 := reads_at 0 la _ _ R1 (Nat.le_0_l _)). assert (A2 := reads_at 0 lb _ _ R2 (Nat.le_0_l _)).
    set (ax := [Comma; TName "axis"; Assign; TNum 0; RP]). set (te := np_head "expand_dims" ++ t2 ++ ax).
    exists (S (N1 + N2)), ("np.concatenate([" ++ s1 ++ ", np.expand_dims(" ++ s2 ++ ", axis=0)], axis=0)")%string,
      (np_head "concatenate" ++ (LB :: (t1 ++ Comma :: te) ++ [RB]) ++ ax). split; [|split].
    - apply (call_text vs f t [a; b] [s1; s2]); [destruct Hf; subst; split; reflexivity| |destruct Hf; subst; reflexivity].
      constructor; [|constructor; [|constructor]]; intros n L; eexists; [apply H1|apply H2]; lia.
    - replace (np_head "concatenate" ++ (LB :: (t1 ++ Comma :: te) ++ [RB]) ++ ax)
        with ((np_head "concatenate" ++ [LB]) ++ t1 ++ (Comma :: np_head "expand_dims") ++ t2 ++ ax ++ RB :: ax)
        by (unfold te; cbn [app]; rewrite <- !app_assoc; cbn [app]; rewrite <- !app_assoc; reflexivity).
      apply (lexes_str "np.concatenate(["); [npstart|]. apply lexes_cat; [exact X1| |reflexivity|discriminate].
      apply (lexes_str ", np.expand_dims("); [npstart|]. apply lexes_cat; [exact X2| |reflexivity|discriminate].
      intros rest _. destruct rest as [|? ?]; reflexivity.
    - apply reads8; [reflexivity|]. apply (opened_np_axis "concatenate").
      apply (level_list [(t1, p); (te, PCall (np_fn "expand_dims") [q; axis_kw])]).
      constructor; [exact A1|constructor; [|constructor]]. cbn [fst snd]. apply (at_lower 0 8); [lia|lia|]. apply opened_level. apply (opened_np_axis "expand_dims"), A2.
  Qed.
  Lemma txt_size vs t a ta p : txt vs a ta 8 p -> txt vs (Node KCall t [Atom (PStr "list_length"); a]) t 8 (PAttr p "size").
  Proof.
    intros [N1 [s1 [t1 [H1 [X1 R1]]]]]. destruct (reads_open _ _ R1) as [Nn O1].
    exists (S N1), (s1 ++ ".size")%string, (t1 ++ [Dot; TName "size"]). split; [|split].
    - apply (call_text vs _ t [a] [s1]); [split; reflexivity| |reflexivity]. constructor; [|constructor]. intros n L. eexists. apply H1. lia.
    - apply lexes_cat; [exact X1| |reflexivity|discriminate]. apply (lexes_op "." _ _ eq_refl). refine (lexes_word _ _ _); [reflexivity|discriminate].
    - apply reads8; [reflexivity|]. apply opened_attr; assumption.
  Qed.
  Definition at_exp (f : string) (p i : pexp) : pexp :=
    if smem f ["list_get"; "matrix_get"] then PIndex p i else if String.eqb f "matrix_tail" then PSlice p (Some i) None else PSlice p None (Some i).
  Lemma txt_at vs f t a i ta ti li p q : smem f f_at = true -> txt vs a ta 8 p -> txt vs i ti li q ->
    txt vs (Node KCall t [Atom (PStr f); a; i]) t 8 (at_exp f p q).
  Proof.
    intros Hf [N1 [s1 [t1 [H1 [X1 R1]]]]] [N2 [s2 [t2 [H2 [X2 R2]]]]]. destruct (reads_open _ _ R1) as [Nn O1].
    assert (A2 := reads_at 0 li _ _ R2 (Nat.le_0_l _)).
    assert (F : Forall2 (fun a x => forall n, N1 + N2 <= n -> exists u, helper fns d n a vs = Ok (x, u)) [a; i] [s1; s2]).
    { constructor; [|constructor; [|constructor]]; intros n L; eexists; [apply H1|apply H2]; lia. }
    apply smem_in in Hf. unfold f_at in Hf.
    assert (Cs : (f = "list_get" \/ f = "matrix_get") \/ f = "matrix_tail" \/ (f = "list_take" \/ f = "matrix_take")).
    { repeat (destruct Hf as [<-|Hf]); auto. destruct Hf. }
    destruct Cs as [Cs|[Cs|Cs]].
    - exists (S (N1 + N2)), (s1 ++ "[" ++ s2 ++ "]")%string, (t1 ++ LB :: t2 ++ [RB]). split; [|split].
      + apply (call_text vs f t [a; i] [s1; s2]); [destruct Cs; subst; split; reflexivity|exact F|destruct Cs; subst; reflexivity].
      + apply lexes_br; assumption.
      + destruct Cs; subst; (apply reads8; [reflexivity|]; apply opened_index; assumption).
    - subst f. exists (S (N1 + N2)), (s1 ++ "[" ++ s2 ++ ":]")%string, (t1 ++ LB :: t2 ++ [Colon; RB]). split; [|split].
      + apply (call_text vs _ t [a; i] [s1; s2]); [split; reflexivity|exact F|reflexivity].
      + apply lexes_cat; [exact X1| |reflexivity|discriminate]. apply (lexes_op "[" _ _ eq_refl). apply lexes_cat; [exact X2| |reflexivity|discriminate].
        apply (lexes_op ":" _ _ eq_refl). apply (lexes_end "]"); reflexivity.
      + apply reads8; [reflexivity|]. apply opened_from; assumption.
    - exists (S (N1 + N2)), (s1 ++ "[:" ++ s2 ++ "]")%string, (t1 ++ LB :: Colon :: t2 ++ [RB]). split; [|split].
      + apply (call_text vs f t [a; i] [s1; s2]); [destruct Cs; subst; split; reflexivity|exact F|destruct Cs; subst; reflexivity].
      + apply lexes_cat; [exact X1| |reflexivity|discriminate]. apply (lexes_op "[" _ _ eq_refl). apply (lexes_op ":" _ _ eq_refl).
        apply lexes_cat; [exact X2|apply (lexes_end "]"); reflexivity|reflexivity|discriminate].
      + destruct Cs; subst; (apply reads8; [reflexivity|]; apply opened_upto; assumption).
  Qed.
  Definition range_exp (col : bool) (p i j : pexp) : pexp := if col then PCols p i j else PSlice p (Some i) (Some j).
  Lemma txt_range_of (col : bool) vs f t a i j N s1 t1 s2 t2 s3 t3 p q u : plain_call f ->
    (forall n, N <= n -> exists u, helper fns d n a vs = Ok (s1, u)) -> (forall n, N <= n -> exists u, helper fns d n i vs = Ok (s2, u)) ->
    (exists s, (forall n, N <= n -> exists u, helper fns d n j vs = Ok (s, u)) /\
      np_call true f [s1; s2; s] = Some (Ok (if col then s1 ++ "[:, " ++ s2 ++ ":" ++ s3 ++ "]" else s1 ++ "[" ++ s2 ++ ":" ++ s3 ++ "]")%string)) ->
    lexes s1 t1 -> opened t1 p -> lexes s2 t2 -> at_level 0 t2 q -> lexes s3 t3 -> at_level 0 t3 u ->
    txt vs (Node KCall t [Atom (PStr f); a; i; j]) t 8 (range_exp col p q u).
  Proof.
    intros P H1 H2 [s [H3 C]] X1 O1 X2 A2 X3 A3. destruct col.
    - exists (S N), (s1 ++ "[:, " ++ s2 ++ ":" ++ s3 ++ "]")%string, (t1 ++ LB :: Colon :: Comma :: t2 ++ Colon :: t3 ++ [RB]). split; [|split].
      + apply (call_text vs f t [a; i; j] [s1; s2; s]); [exact P|repeat (constructor; [assumption|]); constructor|exact C].
      + apply lexes_cat; [exact X1| |reflexivity|discriminate]. apply (lexes_str "[:, " [LB; Colon; Comma]); [npstart|].
        apply lexes_cat; [exact X2| |reflexivity|discriminate]. apply (lexes_op ":" _ _ eq_refl). apply lexes_cat; [exact X3|apply (lexes_end "]"); reflexivity|reflexivity|discriminate].
      + apply reads8; [reflexivity|]. apply opened_cols; assumption.
    - exists (S N), (s1 ++ "[" ++ s2 ++ ":" ++ s3 ++ "]")%string, (t1 ++ LB :: t2 ++ Colon :: t3 ++ [RB]). split; [|split].
      + apply (call_text vs f t [a; i; j] [s1; s2; s]); [exact P|repeat (constructor; [assumption|]); constructor|exact C].
      + apply lexes_cat; [exact X1| |reflexivity|discriminate]. apply (lexes_op "[" _ _ eq_refl).
        apply lexes_cat; [exact X2| |reflexivity|discriminate]. apply (lexes_op ":" _ _ eq_refl). apply lexes_cat; [exact X3|apply (lexes_end "]"); reflexivity|reflexivity|discriminate].
      + apply reads8; [reflexivity|]. apply opened_slice; assumption.
  Qed.
  Definition is_col (f : string) : bool := smem f ["matrix_col_slice"; "matrix_col_slice_with_length"].
  Lemma txt_range vs f t a i j ta ti li tj lj p q u : smem f f_range = true -> txt vs a ta 8 p -> txt vs i ti li q -> txt vs j tj lj u ->
    txt vs (Node KCall t [Atom (PStr f); a; i; j]) t 8 (range_exp (is_col f) p q u).
  Proof.
    intros Hf [N1 [s1 [t1 [H1 [X1 R1]]]]] [N2 [s2 [t2 [H2 [X2 R2]]]]] [N3 [s3 [t3 [H3 [X3 R3]]]]]. destruct (reads_open _ _ R1) as [Nn O1].
    apply smem_in in Hf. unfold f_range in Hf.
    apply (txt_range_of (is_col f) vs f t a i j (N1 + N2 + N3) s1 t1 s2 t2 s3 t3); try assumption;
      try (apply (reads_at 0 li _ _ R2); lia); try (apply (reads_at 0 lj _ _ R3); lia).
    - repeat (destruct Hf as [<-|Hf]); try (split; reflexivity). destruct Hf.
    - intros n L. eexists. apply H1. lia.
    - intros n L. eexists. apply H2. lia.
    - exists s3. split; [intros n L; eexists; apply H3; lia|]. repeat (destruct Hf as [<-|Hf]); try reflexivity. destruct Hf.
  Qed.
  Lemma txt_range_len vs f t a i j ta ti li tj lj p q u : smem f f_range_len = true -> txt vs a ta 8 p -> txt vs i ti li q -> 5 <= li -> txt vs j tj lj u -> 6 <= lj ->
    txt vs (Node KCall t [Atom (PStr f); a; i; j]) t 8 (range_exp (is_col f) p q (PBin OAdd q u)).
  Proof.
    intros Hf [N1 [s1 [t1 [H1 [X1 R1]]]]] [N2 [s2 [t2 [H2 [X2 R2]]]]] L2 [N3 [s3 [t3 [H3 [X3 R3]]]]] L3. destruct (reads_open _ _ R1) as [Nn O1].
    apply smem_in in Hf. unfold f_range_len in Hf.
    apply (txt_range_of (is_col f) vs f t a i j (N1 + N2 + N3) s1 t1 s2 t2 (s2 ++ " + " ++ s3)%string (t2 ++ Plus :: t3)); try assumption;
      try (apply (reads_at 0 li _ _ R2); lia).
    - repeat (destruct Hf as [<-|Hf]); try (split; reflexivity). destruct Hf.
    - intros n L. eexists. apply H1. lia.
    - intros n L. eexists. apply H2. lia.
    - exists s3. split; [intros n L; eexists; apply H3; lia|].
      repeat (destruct Hf as [<-|Hf]); try (cbn [is_col smem existsb]; match goal with |- np_call true ?f ?l = Some (Ok ?x) => idtac end).
      all: try (destruct Hf).
      all: unfold np_call; cbn [np_infix smem existsb]; cbn; repeat rewrite app_s; reflexivity.
    - apply lexes_sep; [sept|exact X2|exact X3].
    - apply (at_lower 0 5); [lia|lia|]. apply sum_level. apply sum_open_bin; [reflexivity|apply (reads_sum li); assumption|apply (reads_at 6 lj _ _ R3 L3)].
  Qed.
End Text.
