(** Proofs for C56: the texts of the expressions (as in NpProofs3.v). *)

From Coq Require Import String Ascii List ZArith Bool Lia.
From Verif Require Import Ast Semantics Dict SexpModel SexpProofs SmtPrint SmtText PyGram PyParse PyText PyMean RktModel LibSem NpModel NpSem NpProofs NpProofs2 NpProofs3 AlModel AlSem.
Import ListNotations.
Local Open Scope string_scope.
Local Open Scope list_scope.

(** ** function calls *)
Definition lfn (L : lib) (g : string) : pexp := PAttr (PName (module L)) g.
Definition lhead (L : lib) (g : string) : list tok := [TName (module L); Dot; TName g; LP].
Definition lstart (L : lib) (g : string) : Prop := forall s, lex "" ((module L ++ "." ++ g ++ "(") ++ s) = lhead L g ++ lex "" s.
Lemma opened_fn ta a its : opened ta a -> is_num a = false -> Forall (fun x => at_level 0 (fst x) (snd x)) its ->
  opened (ta ++ LP :: tjoin Comma (map fst its) ++ [RP]) (PCall a (map snd its)).
Proof.
  intros A N F ts1 q rest P. rewrite <- app_assoc. cbn [app]. rewrite <- app_assoc. cbn [app]. apply A.
  apply (r_call a _ (map (fun x => (false, snd x)) its) ts1); [apply items_read0; auto|]. rewrite map_map. exact P.
Qed.
Lemma opened_lib L g its : Forall (fun x => at_level 0 (fst x) (snd x)) its ->
  opened (lhead L g ++ tjoin Comma (map fst its) ++ [RP]) (PCall (lfn L g) (map snd its)).
Proof.
  intros F. apply (opened_fn [TName (module L); Dot; TName g] (lfn L g)); [|reflexivity|exact F].
  apply (opened_attr [TName (module L)] (PName (module L))); [apply opened_name|reflexivity].
Qed.
Definition kw0 (k : string) : pexp := PKw k (PNum 0).
Lemma kw_tail0 k l ts1 : parses (GItems RP false l) (TName k :: Assign :: TNum 0 :: RP :: ts1) (PList (l ++ [(false, kw0 k)])) ts1.
Proof.
  apply r_kw_last.
  - assert (A := at_lower 0 8 _ _ (Nat.le_0_l _) (le_n _) (opened_level _ _ (opened_name k))). exact (A (Assign :: TNum 0 :: RP :: ts1) Logic.I).
  - assert (A := at_lower 0 7 _ _ (Nat.le_0_l _) ltac:(lia) (level_num 0)). exact (A (RP :: ts1) Logic.I).
Qed.
(** a last argument [k=0] *)
Lemma opened_lib_kw L g k ta a : at_level 0 ta a ->
  opened (lhead L g ++ ta ++ [Comma; TName k; Assign; TNum 0; RP]) (PCall (lfn L g) [a; kw0 k]).
Proof.
  intros A ts1 q rest P. unfold lhead. rewrite <- app_assoc. rewrite <- app_assoc. cbn [app].
  apply (opened_name (module L) (Dot :: TName g :: LP :: ta ++ Comma :: TName k :: Assign :: TNum 0 :: RP :: ts1)). apply r_attr; [reflexivity|].
  apply (r_call (lfn L g) _ [(false, a); (false, kw0 k)] ts1); [|exact P].
  assert (A' := A (Comma :: TName k :: Assign :: TNum 0 :: RP :: ts1) Logic.I). cbn [goal_of] in A'.
  apply (r_item RP false [] _ a (TName k :: Assign :: TNum 0 :: RP :: ts1)); [apply (starts_expr _ _ _ _ A')..|exact A'|]. apply (kw_tail0 k [(false, a)]).
Qed.
(** [a.g(k=0)] *)
Lemma opened_method_kw ta a g k : opened ta a -> is_num a = false ->
  opened (ta ++ [Dot; TName g; LP; TName k; Assign; TNum 0; RP]) (PCall (PAttr a g) [kw0 k]).
Proof.
  intros A N ts1 q rest P. rewrite <- app_assoc. cbn [app]. apply A. apply r_attr; [exact N|].
  apply (r_call (PAttr a g) _ [(false, kw0 k)] ts1); [|exact P]. apply (kw_tail0 k []).
Qed.
Lemma lexes_lib L g ss tss : lstart L g -> Forall2 lexes ss tss ->
  lexes ((module L ++ "." ++ g ++ "(") ++ join ", " ss ++ ")") (lhead L g ++ tjoin Comma tss ++ [RP]).
Proof.
  intros S0 F. apply lexes_str; [exact S0|]. apply lexes_cat; [|apply (lexes_end ")"); reflexivity|reflexivity|discriminate].
  apply (lexes_join ", "); [apply sep_comma|exact F].
Qed.
Definition l_cmp (L : lib) (k : kind) : string :=
  match k with KEq => match L with TORCH => "eq" | _ => "equal" end | _ => np_cmp k end.
Definition l_reduce (L : lib) (f : string) : string :=
  (match L with TF => "reduce_" | _ => "" end ++ np1_text f)%string.

Section Text.
  Variables (L : lib) (fns : list (string * expr)) (d : dtype).
  Hypothesis Dint : is_float d = false.

  (** the text of [e], its tokens and how they are read; and the flag for [matmul] *)
  Definition ltxt (vs : list (string * expr)) (e : expr) (t : ty) (l : nat) (p : pexp) (m : bool) : Prop :=
    exists N s ts, (forall n, N <= n -> lhelper L fns d n e vs = Ok (s, Some t, m)) /\ lexes s ts /\ reads l ts p.

  Lemma ltxt_var vs x t : py_name x = true -> dget vs x = None -> ltxt vs (var x t) t 8 (PName x) false.
  Proof.
    intros Nx E. exists 2, x, [TName x]. split; [|split; [exact (proj1 (word_name x Nx))|apply reads8; [reflexivity|apply opened_name]]].
    intros n Ln. destruct n as [|[|n]]; [lia|lia|]. unfold var. cbn [lhelper mapR bindR np_arith l_rel]. rewrite E. reflexivity.
  Qed.
  Lemma ltxt_repl vs x t e te l p m : dget vs x = Some e -> ltxt vs e te l p m -> ltxt vs (var x t) te l p m.
  Proof.
    intros E [N [s [ts [H R]]]]. exists (S (S N)), s, ts. split; [|exact R].
    intros n Ln. destruct n as [|[|n]]; [lia|lia|]. unfold var. cbn [lhelper mapR bindR np_arith l_rel]. rewrite E. exact (H (S n) ltac:(lia)).
  Qed.
  Lemma ltxt_lit vs z : ltxt vs (lit z) TInt 7 (num_exp z) false.
  Proof.
    unfold num_exp. destruct (Z.ltb z 0) eqn:E.
    - apply Z.ltb_lt in E. exists 2, (string_of_Z z), [Minus; TNum (- z)]. split; [|split; [exact (proj1 (word_neg z E))|apply reads_lt; [lia|lia|apply level_neg]]].
      intros n Ln. destruct n as [|[|n]]; [lia|lia|]. reflexivity.
    - apply Z.ltb_ge in E. exists 2, (string_of_Z z), [TNum z]. split; [|split; [exact (proj1 (word_num z E))|apply reads_lt; [lia|lia|apply level_num]]].
      intros n Ln. destruct n as [|[|n]]; [lia|lia|]. reflexivity.
  Qed.
  Lemma ltxt_blit vs b : ltxt vs (blit b) TBool 8 (PBoolE b) false.
  Proof.
    exists 2, (str_atom (PBool b)), [TBoolLit b]. split; [|split; [|apply reads8; [reflexivity|apply opened_bool]]].
    - intros n Ln. destruct n as [|[|n]]; [lia|lia|]. reflexivity.
    - destruct b; refine (lexes_word _ _ _); try reflexivity; discriminate.
  Qed.

  Lemma ltxt_arith vs k l t e f te le tf lf p q m1 m2 : arith_level k = Some l -> ltxt vs e te le p m1 -> ltxt vs f tf lf q m2 ->
    ltxt vs (Node k t [e; f]) (join_ty te tf) l (PBin (bin_of k) p q) (m1 || (m2 || false)).
  Proof.
    intros K [N1 [s1 [t1 [H1 [X1 R1]]]]] [N2 [s2 [t2 [H2 [X2 R2]]]]].
    exists (S (N1 + N2)), ("(" ++ s1 ++ ")" ++ op_text (bin_of k) ++ "(" ++ s2 ++ ")")%string, ((LP :: t1 ++ [RP]) ++ bin_tok (bin_of k) :: LP :: t2 ++ [RP]).
    assert (J : np_ret [Some te; Some tf] = Ok (join_ty te tf)) by (destruct te, tf; reflexivity).
    split; [|split].
    - intros n Ln. destruct n as [|n]; [lia|]. destruct k; try discriminate K; cbn [lhelper mapR bindR]; rewrite (H1 n), (H2 n) by lia;
        cbn [bindR map fst snd np_arith nth_error]; rewrite ?Dint, J; reflexivity.
    - apply lexes_infix; [apply op_sep|exact X1|exact X2].
    - assert (Y : l = op_level (bin_of k)) by (destruct k; try discriminate K; injection K as <-; reflexivity). rewrite Y.
      apply reads_infix; [apply (reads_at 0 le _ _ R1)|apply (reads_at 0 lf _ _ R2)]; lia.
  Qed.
  Lemma ltxt_cmp vs k t e f le lf p q m1 m2 : is_cmp k = true -> ltxt vs e TInt le p m1 -> ltxt vs f TInt lf q m2 -> 5 <= le -> 5 <= lf ->
    ltxt vs (Node k t [e; f]) TBool 4 (PCmp p [(cmp_of_kind k, q)]) (m1 || (m2 || false)).
  Proof.
    intros K [N1 [s1 [t1 [H1 [X1 R1]]]]] [N2 [s2 [t2 [H2 [X2 R2]]]]] L1 L2.
    assert (Z : exists op g, l_rel L k = Some (op, g) /\ np_arith (is_float d) k = None /\ sep_tok op (cmp_tok k) /\ cmp_of (cmp_tok k) = Some (cmp_of_kind k)).
    { destruct k; try discriminate K; eexists _, _; (split; [reflexivity|]; split; [reflexivity|]; split; [sept|reflexivity]). }
    destruct Z as [op [g [Z1 [Z2 [Z3 Z4]]]]].
    exists (S (N1 + N2)), (s1 ++ op ++ s2)%string, (t1 ++ cmp_tok k :: t2). split; [|split].
    - intros n Ln. destruct n as [|n]; [lia|]. destruct k; try discriminate K; cbn [lhelper mapR bindR]; rewrite (H1 n), (H2 n) by lia;
        cbn [bindR map fst snd nth_error]; rewrite Z1, Z2; reflexivity.
    - apply lexes_sep; assumption.
    - apply reads_lt; [lia|lia|]. apply level_cmp; [exact Z4|apply (reads_at 5 le _ _ R1); lia|apply (reads_at 5 lf _ _ R2); lia].
  Qed.
  Lemma lib2 g s1 t1 s2 t2 le lf p q : lstart L g -> lexes s1 t1 -> reads le t1 p -> lexes s2 t2 -> reads lf t2 q ->
    lexes ((module L ++ "." ++ g) ++ "(" ++ s1 ++ ", " ++ s2 ++ ")") (lhead L g ++ (t1 ++ Comma :: t2) ++ [RP]) /\
    reads 8 (lhead L g ++ (t1 ++ Comma :: t2) ++ [RP]) (PCall (lfn L g) [p; q]).
  Proof.
    intros G X1 R1 X2 R2. split.
    - assert (X := lexes_lib L g [s1; s2] [t1; t2] G ltac:(repeat constructor; assumption)). cbn [join tjoin] in X.
      replace ((module L ++ "." ++ g) ++ "(" ++ s1 ++ ", " ++ s2 ++ ")")%string with ((module L ++ "." ++ g ++ "(") ++ (s1 ++ ", " ++ s2) ++ ")")%string by strs. exact X.
    - apply reads8; [reflexivity|]. apply (opened_lib L g [(t1, p); (t2, q)]). constructor; [|constructor; [|constructor]]; cbn [fst snd];
        [apply (reads_at 0 le _ _ R1)|apply (reads_at 0 lf _ _ R2)]; lia.
  Qed.
  Lemma ltxt_cmps vs k t e f te le tf lf p q m1 m2 : is_cmp k = true -> ltxt vs e te le p m1 -> ltxt vs f tf lf q m2 -> te <> TInt \/ tf <> TInt ->
    ltxt vs (Node k t [e; f]) (TList TBool) 8 (PCall (lfn L (l_cmp L k)) [p; q]) (m1 || (m2 || false)).
  Proof.
    intros K [N1 [s1 [t1 [H1 [X1 R1]]]]] [N2 [s2 [t2 [H2 [X2 R2]]]]] NI.
    assert (Z : exists op, l_rel L k = Some (op, (module L ++ "." ++ l_cmp L k)%string) /\ np_arith (is_float d) k = None /\ lstart L (l_cmp L k)).
    { destruct k; try discriminate K; eexists; (split; [destruct L; reflexivity|]; split; [reflexivity|destruct L; npstart]). }
    destruct Z as [op [Z1 [Z2 Z3]]]. destruct (lib2 (l_cmp L k) s1 t1 s2 t2 le lf p q Z3 X1 R1 X2 R2) as [Y1 Y2].
    exists (S (N1 + N2)), ((module L ++ "." ++ l_cmp L k) ++ "(" ++ s1 ++ ", " ++ s2 ++ ")")%string, (lhead L (l_cmp L k) ++ (t1 ++ Comma :: t2) ++ [RP]). split; [|split; [exact Y1|exact Y2]].
    assert (NP : is_int (Some te) && (is_int (Some tf) && true) = false).
    { destruct NI as [NI|NI]; [destruct te|destruct tf]; try reflexivity; try congruence; destruct (is_int (Some te)); reflexivity. }
    intros n Ln. destruct n as [|n]; [lia|]. destruct k; try discriminate K; cbn [lhelper mapR bindR]; rewrite (H1 n), (H2 n) by lia;
      cbn [bindR map fst snd nth_error]; rewrite Z1, Z2; cbn [forallb]; rewrite NP; reflexivity.
  Qed.
  Lemma ltxt_and vs t e f te le tf lf p q m1 m2 : ltxt vs e te le p m1 -> ltxt vs f tf lf q m2 ->
    ltxt vs (Node KAnd t [e; f]) (if prim te && prim tf then TBool else TList TBool) (if prim te && prim tf then 2 else 8)
      (if prim te && prim tf then PAnd p q else PCall (lfn L "logical_and") [p; q]) (m1 || (m2 || false)).
  Proof.
    intros [N1 [s1 [t1 [H1 [X1 R1]]]]] [N2 [s2 [t2 [H2 [X2 R2]]]]].
    destruct (lib2 "logical_and" s1 t1 s2 t2 le lf p q ltac:(destruct L; npstart) X1 R1 X2 R2) as [Y1 Y2].
    assert (Hn : forall n, S (N1 + N2) <= n -> lhelper L fns d n (Node KAnd t [e; f]) vs =
      Ok (if prim te && prim tf then "(" ++ s1 ++ ") and (" ++ s2 ++ ")" else (module L ++ "." ++ "logical_and") ++ "(" ++ s1 ++ ", " ++ s2 ++ ")",
          Some (if prim te && prim tf then TBool else TList TBool), m1 || (m2 || false))%string).
    { intros n Ln. destruct n as [|n]; [lia|]. cbn [lhelper mapR bindR]; rewrite (H1 n), (H2 n) by lia. cbn [bindR map fst snd nth_error np_arith l_rel forallb].
      rewrite !prim_ty, andb_true_r. destruct (prim te && prim tf); [reflexivity|]. destruct L; reflexivity. }
    destruct (prim te && prim tf).
    - exists (S (N1 + N2)), ("(" ++ s1 ++ ") and (" ++ s2 ++ ")")%string, ((LP :: t1 ++ [RP]) ++ KwAnd :: LP :: t2 ++ [RP]). split; [exact Hn|split].
      + change ("(" ++ s1 ++ ") and (" ++ s2 ++ ")")%string with ("(" ++ s1 ++ (")" ++ " and " ++ "(") ++ s2 ++ ")")%string.
        replace ("(" ++ s1 ++ (")" ++ " and " ++ "(") ++ s2 ++ ")")%string with ("(" ++ s1 ++ ")" ++ " and " ++ "(" ++ s2 ++ ")")%string by strs.
        apply lexes_infix; [sept|exact X1|exact X2].
      + apply reads_lt; [lia|lia|]. apply level_and; apply level_paren; try lia; [apply (reads_at 0 le _ _ R1)|apply (reads_at 0 lf _ _ R2)]; lia.
    - eexists (S (N1 + N2)), _, (lhead L "logical_and" ++ (t1 ++ Comma :: t2) ++ [RP]). split; [exact Hn|split; [exact Y1|exact Y2]].
  Qed.
  Lemma ltxt_or vs t e f te le tf lf p q m1 m2 : ltxt vs e te le p m1 -> ltxt vs f tf lf q m2 ->
    ltxt vs (Node KOr t [e; f]) (if prim te && prim tf then TBool else TList TBool) (if prim te && prim tf then 1 else 8)
      (if prim te && prim tf then POr p q else PCall (lfn L "logical_or") [p; q]) (m1 || (m2 || false)).
  Proof.
    intros [N1 [s1 [t1 [H1 [X1 R1]]]]] [N2 [s2 [t2 [H2 [X2 R2]]]]].
    destruct (lib2 "logical_or" s1 t1 s2 t2 le lf p q ltac:(destruct L; npstart) X1 R1 X2 R2) as [Y1 Y2].
    assert (Hn : forall n, S (N1 + N2) <= n -> lhelper L fns d n (Node KOr t [e; f]) vs =
      Ok (if prim te && prim tf then "(" ++ s1 ++ ") or (" ++ s2 ++ ")" else (module L ++ "." ++ "logical_or") ++ "(" ++ s1 ++ ", " ++ s2 ++ ")",
          Some (if prim te && prim tf then TBool else TList TBool), m1 || (m2 || false))%string).
    { intros n Ln. destruct n as [|n]; [lia|]. cbn [lhelper mapR bindR]; rewrite (H1 n), (H2 n) by lia. cbn [bindR map fst snd nth_error np_arith l_rel forallb].
      rewrite !prim_ty, andb_true_r. destruct (prim te && prim tf); [reflexivity|]. destruct L; reflexivity. }
    destruct (prim te && prim tf).
    - exists (S (N1 + N2)), ("(" ++ s1 ++ ") or (" ++ s2 ++ ")")%string, ((LP :: t1 ++ [RP]) ++ KwOr :: LP :: t2 ++ [RP]). split; [exact Hn|split].
      + change ("(" ++ s1 ++ ") or (" ++ s2 ++ ")")%string with ("(" ++ s1 ++ (")" ++ " or " ++ "(") ++ s2 ++ ")")%string.
        replace ("(" ++ s1 ++ (")" ++ " or " ++ "(") ++ s2 ++ ")")%string with ("(" ++ s1 ++ ")" ++ " or " ++ "(" ++ s2 ++ ")")%string by strs.
        apply lexes_infix; [sept|exact X1|exact X2].
      + apply reads_lt; [lia|lia|]. apply level_or; apply level_paren; try lia; [apply (reads_at 0 le _ _ R1)|apply (reads_at 0 lf _ _ R2)]; lia.
    - eexists (S (N1 + N2)), _, (lhead L "logical_or" ++ (t1 ++ Comma :: t2) ++ [RP]). split; [exact Hn|split; [exact Y1|exact Y2]].
  Qed.
  Lemma ltxt_not vs t e te le p m : ltxt vs e te le p m -> prim te = true -> 3 <= le -> ltxt vs (Node KNot t [e]) TBool 3 (PNot p) (m || false).
  Proof.
    intros [N1 [s1 [t1 [H1 [X1 R1]]]]] P L3. exists (S N1), ("not " ++ s1)%string, (KwNot :: t1). split; [|split].
    - intros n Ln. destruct n as [|n]; [lia|]. cbn [lhelper mapR bindR]; rewrite (H1 n) by lia. cbn [bindR map fst snd nth_error np_arith l_rel forallb]. rewrite prim_ty, P. reflexivity.
    - apply (lexes_pre "not " KwNot); [intros; reflexivity|exact X1].
    - apply reads_lt; [lia|lia|]. apply level_not, (reads_at 3 le _ _ R1 L3).
  Qed.
  Lemma ltxt_nots vs t e te le p m : ltxt vs e te le p m -> prim te = false ->
    ltxt vs (Node KNot t [e]) (TList TBool) 8 (PCall (lfn L "logical_not") [p]) (m || false).
  Proof.
    intros [N1 [s1 [t1 [H1 [X1 R1]]]]] P. exists (S N1), ((module L ++ "." ++ "logical_not" ++ "(") ++ s1 ++ ")")%string, (lhead L "logical_not" ++ t1 ++ [RP]). split; [|split].
    - intros n Ln. destruct n as [|n]; [lia|]. cbn [lhelper mapR bindR]; rewrite (H1 n) by lia. cbn [bindR map fst snd nth_error np_arith l_rel forallb]. rewrite prim_ty, P. destruct L; reflexivity.
    - apply (lexes_lib L "logical_not" [s1] [t1]); [destruct L; npstart|repeat constructor; assumption].
    - apply reads8; [reflexivity|]. apply (opened_lib L "logical_not" [(t1, p)]). repeat constructor. apply (reads_at 0 le _ _ R1). lia.
  Qed.

  (** conditionals *)
  Lemma ltxt_ite t c a b u tc lc la lb pc pa pb m0 m1 m2 : ltxt [] c tc lc pc m0 -> 1 <= lc -> 1 <= la -> type_of a = Ok u ->
    exists p m, ((p = PCond pc pa pb /\ m = m0 || m1 || m2) \/ (pc = PBoolE true /\ p = pa /\ m = m0 || m1) \/ (pc = PBoolE false /\ p = pb /\ m = m0 || m2)) /\
      forall vs, ltxt vs a u la pa m1 -> ltxt vs b u lb pb m2 -> ltxt vs (Node KIte t [c; a; b]) u 0 p m.
  Proof.
    intros [N0 [s0 [t0 [H0 [X0 R0]]]]] L0 L1 Ta.
    assert (B : forall bv, lexes s0 [TBoolLit bv] -> pc = PBoolE bv).
    { intros bv Y. assert (E : t0 = [TBoolLit bv]).
      { pose proof (X0 "" eq_refl) as A. pose proof (Y "" eq_refl) as A'. rewrite A' in A. cbn [lex flush] in A. rewrite !app_nil_r in A. symmetry. exact A. }
      subst t0. pose proof (reads_at 0 lc _ _ R0 (Nat.le_0_l _) [] Logic.I) as P1.
      pose proof (at_lower 0 8 _ _ (Nat.le_0_l _) (le_n _) (opened_level _ _ (opened_bool bv)) [] Logic.I) as P2.
      apply (parses_fun _ _ _ _ _ _ P1 P2). }
    assert (Low : forall l ts p, reads l ts p -> reads 0 ts p) by (intros l ts p R; apply reads_lt; [lia|lia|apply (reads_at 0 l _ _ R); lia]).
    destruct (String.eqb s0 "True") eqn:E1; [|destruct (String.eqb s0 "False") eqn:E2].
    - apply String.eqb_eq in E1. subst s0. exists pa, (m0 || m1). split; [right; left; split; [apply B; refine (lexes_word _ _ _); [reflexivity|discriminate]|split; reflexivity]|].
      intros vs [N1 [s1 [t1 [H1 [X1 R1]]]]] _. exists (S (N0 + N1)), s1, t1. split; [|split; [exact X1|exact (Low _ _ _ R1)]].
      intros n Ln. destruct n as [|n]; [lia|]. cbn [lhelper]. rewrite (H0 n) by lia. cbn [bindR fst]. change (String.eqb "True" "True") with true. cbv iota. rewrite (H1 n) by lia. reflexivity.
    - apply String.eqb_eq in E2. subst s0. exists pb, (m0 || m2). split; [right; right; split; [apply B; refine (lexes_word _ _ _); [reflexivity|discriminate]|split; reflexivity]|].
      intros vs _ [N2 [s2 [t2 [H2 [X2 R2]]]]]. exists (S (N0 + N2)), s2, t2. split; [|split; [exact X2|exact (Low _ _ _ R2)]].
      intros n Ln. destruct n as [|n]; [lia|]. cbn [lhelper]. rewrite (H0 n) by lia. cbn [bindR fst]. change (String.eqb "False" "True") with false. change (String.eqb "False" "False") with true. cbv iota. rewrite (H2 n) by lia. reflexivity.
    - exists (PCond pc pa pb), (m0 || m1 || m2). split; [left; split; reflexivity|]. intros vs [N1 [s1 [t1 [H1 [X1 R1]]]]] [N2 [s2 [t2 [H2 [X2 R2]]]]].
      exists (S (N0 + N1 + N2)), (s1 ++ " if " ++ s0 ++ " else " ++ s2)%string, (t1 ++ KwIf :: t0 ++ KwElse :: t2). split; [|split].
      + intros n Ln. destruct n as [|n]; [lia|]. cbn [lhelper]. rewrite (H0 n) by lia. cbn [bindR fst]. rewrite E1, E2, (H1 n), (H2 n), Ta by lia. reflexivity.
      + apply lexes_sep; [sept|exact X1|]. apply lexes_sep; [sept|exact X0|exact X2].
      + apply reads_lt; [lia|lia|]. apply level_cond; [apply (reads_at 1 la _ _ R1 L1)|apply (reads_at 1 lc _ _ R0 L0)|apply (reads_at 0 lb _ _ R2); lia].
  Qed.

  (** ** calls *)
  Lemma lcall_text vs f t args sm N s : plain_call f -> Forall2 (fun a x => forall n, N <= n -> exists u, lhelper L fns d n a vs = Ok (fst x, u, snd x)) args sm ->
    l_call L true false f (map fst sm) = Some (Ok s) -> forall bm, String.eqb f "matrix_vec_mul" = bm ->
    forall n, S N <= n -> lhelper L fns d n (Node KCall t (Atom (PStr f) :: args)) vs = Ok (s, Some t, existsb snd sm || bm).
  Proof.
    intros [P1 P2] F C bm <- n Ln. destruct n as [|n]; [lia|]. cbn [lhelper].
    assert (M : exists ps, mapR (fun a => lhelper L fns d n a vs) args = Ok ps /\ map (fun x => fst (fst x)) ps = map fst sm /\ existsb snd ps = existsb snd sm).
    { clear C. induction F as [|a x args sm H F IH]; [exists []; repeat split|]. destruct IH as [ps [E1 [E2 E3]]]. cbn [mapR]. destruct (H n ltac:(lia)) as [u E]. rewrite E, E1. cbn [bindR].
      eexists; split; [reflexivity|]. cbn [map existsb fst snd]. rewrite E2, E3. split; reflexivity. }
    destruct M as [ps [E1 [E2 E3]]]. rewrite E1. cbn [bindR]. rewrite P1, P2, Dint, E2, E3. cbn [negb]. rewrite C. reflexivity.
  Qed.

  Lemma ltxt_infix vs f o swap t a b ta la tb lb p q m1 m2 : plain_call f -> np_infix true f = Some (op_text o, swap) -> String.eqb f "matrix_vec_mul" = false ->
    ltxt vs a ta la p m1 -> ltxt vs b tb lb q m2 ->
    ltxt vs (Node KCall t [Atom (PStr f); a; b]) t (op_level o) (if swap then PBin o q p else PBin o p q) (m1 || (m2 || false) || false).
  Proof.
    intros P C NM [N1 [s1 [t1 [H1 [X1 R1]]]]] [N2 [s2 [t2 [H2 [X2 R2]]]]].
    assert (A1 := reads_at 0 la _ _ R1 (Nat.le_0_l _)). assert (A2 := reads_at 0 lb _ _ R2 (Nat.le_0_l _)).
    assert (F : Forall2 (fun a x => forall n, N1 + N2 <= n -> exists u, lhelper L fns d n a vs = Ok (fst x, u, snd x)) [a; b] [(s1, m1); (s2, m2)]).
    { constructor; [|constructor; [|constructor]]; intros n Ln; eexists; [apply H1|apply H2]; lia. }
    destruct swap.
    - exists (S (N1 + N2)), ("(" ++ s2 ++ ")" ++ op_text o ++ "(" ++ s1 ++ ")")%string, ((LP :: t2 ++ [RP]) ++ bin_tok o :: LP :: t1 ++ [RP]). split; [|split].
      + intros n Ln. apply (lcall_text vs f t [a; b] [(s1, m1); (s2, m2)] (N1 + N2)); [exact P|exact F| |exact NM|exact Ln]. unfold l_call. rewrite C. reflexivity.
      + apply lexes_infix; [apply op_sep|exact X2|exact X1].
      + apply reads_infix; assumption.
    - exists (S (N1 + N2)), ("(" ++ s1 ++ ")" ++ op_text o ++ "(" ++ s2 ++ ")")%string, ((LP :: t1 ++ [RP]) ++ bin_tok o :: LP :: t2 ++ [RP]). split; [|split].
      + intros n Ln. apply (lcall_text vs f t [a; b] [(s1, m1); (s2, m2)] (N1 + N2)); [exact P|exact F| |exact NM|exact Ln]. unfold l_call. rewrite C. reflexivity.
      + apply lexes_infix; [apply op_sep|exact X1|exact X2].
      + apply reads_infix; assumption.
  Qed.
  Lemma ltxt_np1 vs f t a ta la p m : smem f f_np1 = true -> ltxt vs a ta la p m ->
    ltxt vs (Node KCall t [Atom (PStr f); a]) t 8 (PCall (lfn L (l_reduce L f)) [p]) (m || false || false).
  Proof.
    intros Hf [N1 [s1 [t1 [H1 [X1 R1]]]]].
    exists (S N1), ((module L ++ "." ++ l_reduce L f ++ "(") ++ s1 ++ ")")%string, (lhead L (l_reduce L f) ++ t1 ++ [RP]).
    apply smem_in in Hf. split; [|split].
    - assert (NM : String.eqb f "matrix_vec_mul" = false) by (unfold f_np1 in Hf; repeat (destruct Hf as [<-|Hf]); try reflexivity; destruct Hf).
      intros n Ln. apply (lcall_text vs f t [a] [(s1, m)] N1); [| | |exact NM|exact Ln].
      + unfold f_np1 in Hf. repeat (destruct Hf as [<-|Hf]); try (split; reflexivity). destruct Hf.
      + constructor; [|constructor]. intros k Lk. eexists. apply H1. lia.
      + unfold f_np1 in Hf. repeat (destruct Hf as [<-|Hf]); try (destruct L; reflexivity). destruct Hf.
    - apply (lexes_lib L _ [s1] [t1]); [|repeat constructor; assumption]. unfold f_np1 in Hf. repeat (destruct Hf as [<-|Hf]); try (destruct L; npstart). destruct Hf.
    - apply reads8; [reflexivity|]. apply (opened_lib L _ [(t1, p)]). repeat constructor. apply (reads_at 0 la _ _ R1). lia.
  Qed.
  Definition matvec_exp (p q : pexp) : pexp :=
    PCall (match L with TF => PAttr (lfn TF "linalg") "matvec" | _ => lfn L "matmul" end) [p; q].
  Lemma ltxt_matmul vs t a b ta la tb lb p q m1 m2 : ltxt vs a ta la p m1 -> ltxt vs b tb lb q m2 ->
    ltxt vs (Node KCall t [Atom (PStr "matrix_vec_mul"); a; b]) t 8 (matvec_exp p q) (m1 || (m2 || false) || true).
  Proof.
    intros [N1 [s1 [t1 [H1 [X1 R1]]]]] [N2 [s2 [t2 [H2 [X2 R2]]]]].
    set (hd := match L with TF => [TName "tf"; Dot; TName "linalg"; Dot; TName "matvec"; LP] | _ => lhead L "matmul" end).
    set (hs := match L with MLX => "mx.matmul(" | TF => "tf.linalg.matvec(" | TORCH => "torch.matmul(" end).
    exists (S (N1 + N2)), (hs ++ s1 ++ ", " ++ s2 ++ ")")%string, (hd ++ (t1 ++ Comma :: t2) ++ [RP]). split; [|split].
    - intros n Ln. apply (lcall_text vs "matrix_vec_mul" t [a; b] [(s1, m1); (s2, m2)] (N1 + N2)); [split; reflexivity| |unfold hs; destruct L; reflexivity|reflexivity|exact Ln].
      constructor; [|constructor; [|constructor]]; intros k Lk; eexists; [apply H1|apply H2]; lia.
    - apply lexes_str; [unfold hs, hd; destruct L; npstart|].
      replace (s1 ++ ", " ++ s2 ++ ")")%string with (join ", " [s1; s2] ++ ")")%string by (cbn [join]; strs).
      apply lexes_cat; [|apply (lexes_end ")"); reflexivity|reflexivity|discriminate].
      apply (lexes_join ", " Comma [s1; s2] [t1; t2]); [apply sep_comma|repeat constructor; assumption].
    - apply reads8; [reflexivity|]. unfold matvec_exp, hd.
      assert (F : Forall (fun x : list tok * pexp => at_level 0 (fst x) (snd x)) [(t1, p); (t2, q)]).
      { constructor; [|constructor; [|constructor]]; cbn [fst snd]; [apply (reads_at 0 la _ _ R1)|apply (reads_at 0 lb _ _ R2)]; lia. }
      destruct L; [apply (opened_lib MLX "matmul" _ F)| |apply (opened_lib TORCH "matmul" _ F)].
      apply (opened_fn [TName "tf"; Dot; TName "linalg"; Dot; TName "matvec"] (PAttr (lfn TF "linalg") "matvec") [(t1, p); (t2, q)]); [|reflexivity|exact F].
      apply (opened_attr [TName "tf"; Dot; TName "linalg"] (lfn TF "linalg")); [|reflexivity].
      apply (opened_attr [TName "tf"] (PName "tf")); [apply opened_name|reflexivity].
  Qed.
  Definition append_exp (p q : pexp) : pexp :=
    match L with
    | MLX => PCall (lfn MLX "concatenate") [PList [(false, p); (false, PCall (lfn MLX "expand_dims") [q; kw0 "axis"])]; kw0 "axis"]
    | TF => PCall (lfn TF "concat") [PList [(false, p); (false, PCall (lfn TF "expand_dims") [q; PNum 0])]; kw0 "axis"]
    | TORCH => PCall (lfn TORCH "cat") [PList [(false, p); (false, PCall (PAttr q "unsqueeze") [PNum 0])]; kw0 "dim"]
    end.
  Lemma ltxt_append vs f t a b ta la tb lb p q m1 m2 : f = "list_append" \/ f = "matrix_append" -> (L = TORCH -> lb = 8) -> ltxt vs a ta la p m1 -> ltxt vs b tb lb q m2 ->
    ltxt vs (Node KCall t [Atom (PStr f); a; b]) t 8 (append_exp p q) (m1 || (m2 || false) || false).
  Proof.
    intros Hf L8 [N1 [s1 [t1 [H1 [X1 R1]]]]] [N2 [s2 [t2 [H2 [X2 R2]]]]].
    assert (A1 := reads_at 0 la _ _ R1 (Nat.le_0_l _)). assert (A2 := reads_at 0 lb _ _ R2 (Nat.le_0_l _)).
    assert (F : Forall2 (fun a x => forall n, N1 + N2 <= n -> exists u, lhelper L fns d n a vs = Ok (fst x, u, snd x)) [a; b] [(s1, m1); (s2, m2)]).
    { constructor; [|constructor; [|constructor]]; intros n Ln; eexists; [apply H1|apply H2]; lia. }
    assert (NM : String.eqb f "matrix_vec_mul" = false) by (destruct Hf; subst; reflexivity).
    assert (Hn : forall s, l_call L true false f [s1; s2] = Some (Ok s) -> forall n, S (N1 + N2) <= n ->
      lhelper L fns d n (Node KCall t [Atom (PStr f); a; b]) vs = Ok (s, Some t, m1 || (m2 || false) || false)).
    { intros s C n Ln. apply (lcall_text vs f t [a; b] [(s1, m1); (s2, m2)] (N1 + N2)); [destruct Hf; subst; split; reflexivity|exact F|exact C|exact NM|exact Ln]. }
    assert (N0 : at_level 0 [TNum 0] (PNum 0)) by (apply (at_lower 0 7); [lia|lia|apply level_num]).
    unfold ltxt, append_exp. destruct L.
    - set (ax := [Comma; TName "axis"; Assign; TNum 0; RP]). set (te := lhead MLX "expand_dims" ++ t2 ++ ax).
      exists (S (N1 + N2)), ("mx.concatenate([" ++ s1 ++ ", mx.expand_dims(" ++ s2 ++ ", axis=0)], axis=0)")%string,
        (lhead MLX "concatenate" ++ (LB :: (t1 ++ Comma :: te) ++ [RB]) ++ ax). split; [apply Hn; destruct Hf; subst; reflexivity|split].
      + replace (lhead MLX "concatenate" ++ (LB :: (t1 ++ Comma :: te) ++ [RB]) ++ ax)
          with ((lhead MLX "concatenate" ++ [LB]) ++ t1 ++ (Comma :: lhead MLX "expand_dims") ++ t2 ++ ax ++ RB :: ax)
          by (unfold te; cbn [app]; rewrite <- !app_assoc; cbn [app]; rewrite <- !app_assoc; reflexivity).
        apply (lexes_str "mx.concatenate(["); [npstart|]. apply lexes_cat; [exact X1| |reflexivity|discriminate].
        apply (lexes_str ", mx.expand_dims("); [npstart|]. apply lexes_cat; [exact X2| |reflexivity|discriminate].
        intros rest _. destruct rest as [|? ?]; reflexivity.
      + apply reads8; [reflexivity|]. apply (opened_lib_kw MLX "concatenate" "axis").
        apply (level_list [(t1, p); (te, PCall (lfn MLX "expand_dims") [q; kw0 "axis"])]).
        constructor; [exact A1|constructor; [|constructor]]. cbn [fst snd]. apply (at_lower 0 8); [lia|lia|]. apply opened_level. apply (opened_lib_kw MLX "expand_dims" "axis"), A2.
    - set (ax := [Comma; TName "axis"; Assign; TNum 0; RP]). set (te := lhead TF "expand_dims" ++ (t2 ++ [Comma; TNum 0]) ++ [RP]).
      exists (S (N1 + N2)), ("tf.concat([" ++ s1 ++ ", tf.expand_dims(" ++ s2 ++ ", 0)], axis=0)")%string,
        (lhead TF "concat" ++ (LB :: (t1 ++ Comma :: te) ++ [RB]) ++ ax). split; [apply Hn; destruct Hf; subst; reflexivity|split].
      + replace (lhead TF "concat" ++ (LB :: (t1 ++ Comma :: te) ++ [RB]) ++ ax)
          with ((lhead TF "concat" ++ [LB]) ++ t1 ++ (Comma :: lhead TF "expand_dims") ++ t2 ++ [Comma; TNum 0; RP] ++ RB :: ax)
          by (unfold te; cbn [app]; rewrite <- !app_assoc; cbn [app]; rewrite <- !app_assoc; reflexivity).
        apply (lexes_str "tf.concat(["); [npstart|]. apply lexes_cat; [exact X1| |reflexivity|discriminate].
        apply (lexes_str ", tf.expand_dims("); [npstart|]. apply lexes_cat; [exact X2| |reflexivity|discriminate].
        intros rest _. destruct rest as [|? ?]; reflexivity.
      + apply reads8; [reflexivity|]. apply (opened_lib_kw TF "concat" "axis").
        apply (level_list [(t1, p); (te, PCall (lfn TF "expand_dims") [q; PNum 0])]).
        constructor; [exact A1|constructor; [|constructor]]. cbn [fst snd]. apply (at_lower 0 8); [lia|lia|]. apply opened_level.
        apply (opened_lib TF "expand_dims" [(t2, q); ([TNum 0], PNum 0)]). constructor; [exact A2|constructor; [exact N0|constructor]].
    - specialize (L8 eq_refl). subst lb. destruct (reads_open _ _ R2) as [Nn O2].
      set (ax := [Comma; TName "dim"; Assign; TNum 0; RP]). set (te := (t2 ++ [Dot; TName "unsqueeze"]) ++ LP :: [TNum 0] ++ [RP]).
      exists (S (N1 + N2)), ("torch.cat([" ++ s1 ++ ", " ++ s2 ++ ".unsqueeze(0)], dim=0)")%string,
        (lhead TORCH "cat" ++ (LB :: (t1 ++ Comma :: te) ++ [RB]) ++ ax). split; [apply Hn; destruct Hf; subst; reflexivity|split].
      + replace (lhead TORCH "cat" ++ (LB :: (t1 ++ Comma :: te) ++ [RB]) ++ ax)
          with ((lhead TORCH "cat" ++ [LB]) ++ t1 ++ [Comma] ++ t2 ++ [Dot; TName "unsqueeze"; LP; TNum 0; RP] ++ RB :: ax)
          by (unfold te; cbn [app]; rewrite <- !app_assoc; cbn [app]; rewrite <- !app_assoc; reflexivity).
        apply (lexes_str "torch.cat(["); [npstart|]. apply lexes_cat; [exact X1| |reflexivity|discriminate].
        apply (lexes_str ", " [Comma]); [npstart|]. apply lexes_cat; [exact X2| |reflexivity|discriminate].
        intros rest _. destruct rest as [|? ?]; reflexivity.
      + apply reads8; [reflexivity|]. apply (opened_lib_kw TORCH "cat" "dim").
        apply (level_list [(t1, p); (te, PCall (PAttr q "unsqueeze") [PNum 0])]).
        constructor; [exact A1|constructor; [|constructor]]. cbn [fst snd]. apply (at_lower 0 8); [lia|lia|]. apply opened_level.
        apply (opened_fn (t2 ++ [Dot; TName "unsqueeze"]) (PAttr q "unsqueeze") [([TNum 0], PNum 0)]); [apply opened_attr; assumption|reflexivity|].
        constructor; [exact N0|constructor].
  Qed.
  Definition size_exp (p : pexp) : pexp :=
    match L with MLX => PAttr p "size" | TF => PCall (lfn TF "size") [p] | TORCH => PCall (PAttr p "size") [kw0 "dim"] end.
  Lemma ltxt_size vs t a ta p m : ltxt vs a ta 8 p m -> ltxt vs (Node KCall t [Atom (PStr "list_length"); a]) t 8 (size_exp p) (m || false || false).
  Proof.
    intros [N1 [s1 [t1 [H1 [X1 R1]]]]]. destruct (reads_open _ _ R1) as [Nn O1].
    assert (Hn : forall s, l_call L true false "list_length" [s1] = Some (Ok s) -> forall n, S N1 <= n ->
      lhelper L fns d n (Node KCall t [Atom (PStr "list_length"); a]) vs = Ok (s, Some t, m || false || false)).
    { intros s C n Ln. apply (lcall_text vs "list_length" t [a] [(s1, m)] N1); [split; reflexivity| |exact C|reflexivity|exact Ln].
      constructor; [|constructor]. intros k Lk. eexists. apply H1. lia. }
    unfold ltxt, size_exp. destruct L.
    - exists (S N1), (s1 ++ ".size")%string, (t1 ++ [Dot; TName "size"]). split; [apply Hn; reflexivity|split].
      + apply lexes_cat; [exact X1| |reflexivity|discriminate]. apply (lexes_op "." _ _ eq_refl). refine (lexes_word _ _ _); [reflexivity|discriminate].
      + apply reads8; [reflexivity|]. apply opened_attr; assumption.
    - exists (S N1), (("tf" ++ "." ++ "size" ++ "(") ++ s1 ++ ")")%string, (lhead TF "size" ++ t1 ++ [RP]). split; [apply Hn; reflexivity|split].
      + apply (lexes_lib TF "size" [s1] [t1]); [npstart|repeat constructor; assumption].
      + apply reads8; [reflexivity|]. apply (opened_lib TF "size" [(t1, p)]). repeat constructor. apply (reads_at 0 8 _ _ R1). lia.
    - exists (S N1), (s1 ++ ".size(dim=0)")%string, (t1 ++ [Dot; TName "size"; LP; TName "dim"; Assign; TNum 0; RP]). split; [apply Hn; reflexivity|split].
      + apply lexes_cat; [exact X1| |reflexivity|discriminate]. intros rest _. destruct rest as [|? ?]; reflexivity.
      + apply reads8; [reflexivity|]. apply opened_method_kw; assumption.
  Qed.
  Lemma ltxt_at vs f t a i ta ti li p q m1 m2 : smem f f_at = true -> ltxt vs a ta 8 p m1 -> ltxt vs i ti li q m2 ->
    ltxt vs (Node KCall t [Atom (PStr f); a; i]) t 8 (at_exp f p q) (m1 || (m2 || false) || false).
  Proof.
    intros Hf [N1 [s1 [t1 [H1 [X1 R1]]]]] [N2 [s2 [t2 [H2 [X2 R2]]]]]. destruct (reads_open _ _ R1) as [Nn O1].
    assert (A2 := reads_at 0 li _ _ R2 (Nat.le_0_l _)).
    assert (F : Forall2 (fun a x => forall n, N1 + N2 <= n -> exists u, lhelper L fns d n a vs = Ok (fst x, u, snd x)) [a; i] [(s1, m1); (s2, m2)]).
    { constructor; [|constructor; [|constructor]]; intros n Ln; eexists; [apply H1|apply H2]; lia. }
    apply smem_in in Hf. unfold f_at in Hf.
    assert (Cs : (f = "list_get" \/ f = "matrix_get") \/ f = "matrix_tail" \/ (f = "list_take" \/ f = "matrix_take")).
    { repeat (destruct Hf as [<-|Hf]); auto. destruct Hf. }
    assert (NM : String.eqb f "matrix_vec_mul" = false) by (repeat (destruct Hf as [<-|Hf]); try reflexivity; destruct Hf).
    assert (PC : plain_call f) by (repeat (destruct Hf as [<-|Hf]); try (split; reflexivity); destruct Hf).
    assert (Hn : forall s, l_call L true false f [s1; s2] = Some (Ok s) -> forall n, S (N1 + N2) <= n ->
      lhelper L fns d n (Node KCall t [Atom (PStr f); a; i]) vs = Ok (s, Some t, m1 || (m2 || false) || false)).
    { intros s C n Ln. apply (lcall_text vs f t [a; i] [(s1, m1); (s2, m2)] (N1 + N2)); [exact PC|exact F|exact C|exact NM|exact Ln]. }
    destruct Cs as [Cs|[Cs|Cs]].
    - exists (S (N1 + N2)), (s1 ++ "[" ++ s2 ++ "]")%string, (t1 ++ LB :: t2 ++ [RB]). split; [|split].
      + apply Hn. destruct Cs; subst; destruct L; reflexivity.
      + apply lexes_br; assumption.
      + destruct Cs; subst; (apply reads8; [reflexivity|]; apply opened_index; assumption).
    - subst f. exists (S (N1 + N2)), (s1 ++ "[" ++ s2 ++ ":]")%string, (t1 ++ LB :: t2 ++ [Colon; RB]). split; [|split].
      + apply Hn. destruct L; reflexivity.
      + apply lexes_cat; [exact X1| |reflexivity|discriminate]. apply (lexes_op "[" _ _ eq_refl). apply lexes_cat; [exact X2| |reflexivity|discriminate].
        apply (lexes_op ":" _ _ eq_refl). apply (lexes_end "]"); reflexivity.
      + apply reads8; [reflexivity|]. apply opened_from; assumption.
    - exists (S (N1 + N2)), (s1 ++ "[:" ++ s2 ++ "]")%string, (t1 ++ LB :: Colon :: t2 ++ [RB]). split; [|split].
      + apply Hn. destruct Cs; subst; destruct L; reflexivity.
      + apply lexes_cat; [exact X1| |reflexivity|discriminate]. apply (lexes_op "[" _ _ eq_refl). apply (lexes_op ":" _ _ eq_refl).
        apply lexes_cat; [exact X2|apply (lexes_end "]"); reflexivity|reflexivity|discriminate].
      + destruct Cs; subst; (apply reads8; [reflexivity|]; apply opened_upto; assumption).
  Qed.
  Lemma ltxt_range_of (col : bool) vs f t a i j N s1 t1 s2 t2 s3 t3 p q u m1 m2 m3 : plain_call f -> String.eqb f "matrix_vec_mul" = false ->
    (forall n, N <= n -> exists u, lhelper L fns d n a vs = Ok (s1, u, m1)) -> (forall n, N <= n -> exists u, lhelper L fns d n i vs = Ok (s2, u, m2)) ->
    (exists s, (forall n, N <= n -> exists u, lhelper L fns d n j vs = Ok (s, u, m3)) /\
      l_call L true false f [s1; s2; s] = Some (Ok (if col then s1 ++ "[:, " ++ s2 ++ ":" ++ s3 ++ "]" else s1 ++ "[" ++ s2 ++ ":" ++ s3 ++ "]")%string)) ->
    lexes s1 t1 -> opened t1 p -> lexes s2 t2 -> at_level 0 t2 q -> lexes s3 t3 -> at_level 0 t3 u ->
    ltxt vs (Node KCall t [Atom (PStr f); a; i; j]) t 8 (range_exp col p q u) (m1 || (m2 || (m3 || false)) || false).
  Proof.
    intros P NM H1 H2 [s [H3 C]] X1 O1 X2 A2 X3 A3.
    assert (Hn : forall n, S N <= n -> lhelper L fns d n (Node KCall t [Atom (PStr f); a; i; j]) vs =
      Ok (if col then s1 ++ "[:, " ++ s2 ++ ":" ++ s3 ++ "]" else s1 ++ "[" ++ s2 ++ ":" ++ s3 ++ "]", Some t, m1 || (m2 || (m3 || false)) || false)%string).
    { intros n Ln. apply (lcall_text vs f t [a; i; j] [(s1, m1); (s2, m2); (s, m3)] N); [exact P|repeat (constructor; [assumption|]); constructor|exact C|exact NM|exact Ln]. }
    destruct col.
    - exists (S N), (s1 ++ "[:, " ++ s2 ++ ":" ++ s3 ++ "]")%string, (t1 ++ LB :: Colon :: Comma :: t2 ++ Colon :: t3 ++ [RB]). split; [exact Hn|split].
      + apply lexes_cat; [exact X1| |reflexivity|discriminate]. apply (lexes_str "[:, " [LB; Colon; Comma]); [npstart|].
        apply lexes_cat; [exact X2| |reflexivity|discriminate]. apply (lexes_op ":" _ _ eq_refl). apply lexes_cat; [exact X3|apply (lexes_end "]"); reflexivity|reflexivity|discriminate].
      + apply reads8; [reflexivity|]. apply opened_cols; assumption.
    - exists (S N), (s1 ++ "[" ++ s2 ++ ":" ++ s3 ++ "]")%string, (t1 ++ LB :: t2 ++ Colon :: t3 ++ [RB]). split; [exact Hn|split].
      + apply lexes_cat; [exact X1| |reflexivity|discriminate]. apply (lexes_op "[" _ _ eq_refl).
        apply lexes_cat; [exact X2| |reflexivity|discriminate]. apply (lexes_op ":" _ _ eq_refl). apply lexes_cat; [exact X3|apply (lexes_end "]"); reflexivity|reflexivity|discriminate].
      + apply reads8; [reflexivity|]. apply opened_slice; assumption.
  Qed.
  Lemma ltxt_range vs f t a i j ta ti li tj lj p q u m1 m2 m3 : smem f f_range = true -> ltxt vs a ta 8 p m1 -> ltxt vs i ti li q m2 -> ltxt vs j tj lj u m3 ->
    ltxt vs (Node KCall t [Atom (PStr f); a; i; j]) t 8 (range_exp (is_col f) p q u) (m1 || (m2 || (m3 || false)) || false).
  Proof.
    intros Hf [N1 [s1 [t1 [H1 [X1 R1]]]]] [N2 [s2 [t2 [H2 [X2 R2]]]]] [N3 [s3 [t3 [H3 [X3 R3]]]]]. destruct (reads_open _ _ R1) as [Nn O1].
    apply smem_in in Hf. unfold f_range in Hf.
    apply (ltxt_range_of (is_col f) vs f t a i j (N1 + N2 + N3) s1 t1 s2 t2 s3 t3); try assumption;
      try (apply (reads_at 0 li _ _ R2); lia); try (apply (reads_at 0 lj _ _ R3); lia).
    - repeat (destruct Hf as [<-|Hf]); try (split; reflexivity). destruct Hf.
    - repeat (destruct Hf as [<-|Hf]); try reflexivity. destruct Hf.
    - intros n Ln. eexists. apply H1. lia.
    - intros n Ln. eexists. apply H2. lia.
    - exists s3. split; [intros n Ln; eexists; apply H3; lia|]. repeat (destruct Hf as [<-|Hf]); try (destruct L; reflexivity). destruct Hf.
  Qed.
  Lemma ltxt_range_len vs f t a i j ta ti li tj lj p q u m1 m2 m3 : smem f f_range_len = true -> ltxt vs a ta 8 p m1 -> ltxt vs i ti li q m2 -> 5 <= li -> ltxt vs j tj lj u m3 -> 6 <= lj ->
    ltxt vs (Node KCall t [Atom (PStr f); a; i; j]) t 8 (range_exp (is_col f) p q (PBin OAdd q u)) (m1 || (m2 || (m3 || false)) || false).
  Proof.
    intros Hf [N1 [s1 [t1 [H1 [X1 R1]]]]] [N2 [s2 [t2 [H2 [X2 R2]]]]] L2 [N3 [s3 [t3 [H3 [X3 R3]]]]] L3. destruct (reads_open _ _ R1) as [Nn O1].
    apply smem_in in Hf. unfold f_range_len in Hf.
    apply (ltxt_range_of (is_col f) vs f t a i j (N1 + N2 + N3) s1 t1 s2 t2 (s2 ++ " + " ++ s3)%string (t2 ++ Plus :: t3)); try assumption;
      try (apply (reads_at 0 li _ _ R2); lia).
    - repeat (destruct Hf as [<-|Hf]); try (split; reflexivity). destruct Hf.
    - repeat (destruct Hf as [<-|Hf]); try reflexivity. destruct Hf.
    - intros n Ln. eexists. apply H1. lia.
    - intros n Ln. eexists. apply H2. lia.
    - exists s3. split; [intros n Ln; eexists; apply H3; lia|].
      repeat (destruct Hf as [<-|Hf]); try (destruct Hf).
      all: destruct L; unfold l_call; cbn [np_infix smem existsb]; cbn; repeat rewrite app_s; reflexivity.
    - apply lexes_sep; [sept|exact X2|exact X3].
    - apply (at_lower 0 5); [lia|lia|]. apply sum_level. apply sum_open_bin; [reflexivity|apply (reads_sum li); assumption|apply (reads_at 6 lj _ _ R3 L3)].
  Qed.
End Text.
