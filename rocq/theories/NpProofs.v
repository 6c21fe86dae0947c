(** Proofs for C45: the texts of the NumPy code generator are read as they are meant, and
    have the values of the expressions. *)

From Coq Require Import String Ascii List ZArith Bool Lia.
From Verif Require Import Ast Semantics Dict SexpModel SexpProofs SmtPrint SmtText PyGram PyParse PyText PyMean RktModel LibSem NpModel NpSem.
Import ListNotations.
Local Open Scope string_scope.
Local Open Scope list_scope.

(** ** reading texts *)
Definition opened (ts : list tok) (p : pexp) : Prop :=
  forall ts1 q rest, parses (GPrimT p) ts1 q rest -> parses GPrim (ts ++ ts1) q rest.
Definition sum_open (ts : list tok) (p : pexp) : Prop :=
  forall ts1 q rest, stops 6 ts1 -> parses (GSumT p) ts1 q rest -> parses GSum (ts ++ ts1) q rest.
Definition reads (l : nat) (ts : list tok) (p : pexp) : Prop :=
  l <= 8 /\ at_level l ts p /\ (l = 8 -> is_num p = false /\ opened ts p) /\ (l = 5 -> sum_open ts p).
Lemma opened_level ts p : opened ts p -> at_level 8 ts p.
Proof. intros H rest S0. apply H, primT_nil, S0. Qed.
Lemma reads8 ts p : is_num p = false -> opened ts p -> reads 8 ts p.
Proof. intros N H. split; [lia|]. split; [apply opened_level, H|split; [auto|lia]]. Qed.
Lemma reads_lt l ts p : l < 8 -> l <> 5 -> at_level l ts p -> reads l ts p.
Proof. intros L N H. split; [lia|]. split; [exact H|split; lia]. Qed.
Lemma sum_level ts p : sum_open ts p -> at_level 5 ts p.
Proof. intros H rest S0. apply H; [apply (stops_le 5); [lia|exact S0]|apply sumT_nil, S0]. Qed.
Lemma reads5 ts p : sum_open ts p -> reads 5 ts p.
Proof. intros H. split; [lia|]. split; [apply sum_level, H|split; [lia|auto]]. Qed.
Lemma reads_sum l ts p : 5 <= l -> reads l ts p -> sum_open ts p.
Proof.
  intros L [L8 [A [_ H]]]. destruct (Nat.eq_dec l 5) as [E|E]; [auto|]. intros ts1 q rest S0 P.
  apply (r_sum _ p ts1); [|exact P]. exact (at_lower 6 l _ _ ltac:(lia) L8 A ts1 S0).
Qed.
Lemma reads_at l m ts p : reads m ts p -> l <= m -> at_level l ts p.
Proof. intros [L [A _]] H. apply (at_lower l m); auto. Qed.
Lemma reads_open ts p : reads 8 ts p -> is_num p = false /\ opened ts p.
Proof. intros [_ [_ [H _]]]. auto. Qed.

Lemma opened_name x : opened [TName x] (PName x).
Proof. intros ts1 q rest P. apply (r_prim _ (PName x) ts1); [apply r_name|exact P]. Qed.
Lemma opened_bool b : opened [TBoolLit b] (PBoolE b).
Proof. intros ts1 q rest P. apply (r_prim _ (PBoolE b) ts1); [apply r_boollit|exact P]. Qed.
Lemma level_num z : at_level 7 [TNum z] (PNum z).
Proof.
  apply (at_lower 7 8); [lia|lia|]. apply opened_level. intros ts1 q rest P. apply (r_prim _ (PNum z) ts1); [apply r_num|exact P].
Qed.
Lemma level_neg z : at_level 7 [Minus; TNum z] (PNeg (PNum z)).
Proof. intros rest S0. cbn [app goal_of]. apply r_neg. exact (level_num z rest S0). Qed.
Lemma opened_paren ts p : at_level 0 ts p -> opened (LP :: ts ++ [RP]) p.
Proof.
  intros A ts1 q rest P. cbn [app]. rewrite <- app_assoc. cbn [app].
  assert (A' := A (RP :: ts1) Logic.I). cbn [goal_of] in A'.
  apply (r_prim _ p ts1); [|exact P]. apply r_paren; [apply (starts_expr _ _ _ _ A')|exact A'].
Qed.
Lemma level_paren l ts p : l <= 8 -> at_level 0 ts p -> at_level l (LP :: ts ++ [RP]) p.
Proof. intros L A. apply (at_lower l 8); [exact L|lia|]. apply opened_level, opened_paren, A. Qed.

Lemma sum_open_bin tk o ta a tb b : sum_of tk = Some o -> sum_open ta a -> at_level 6 tb b -> sum_open (ta ++ tk :: tb) (PBin o a b).
Proof.
  intros T A B ts1 q rest S0 P. rewrite <- app_assoc. cbn [app]. apply A.
  - destruct tk; try discriminate T; cbn; lia.
  - apply (r_sumT tk o a (tb ++ ts1) b ts1); [exact T| |exact P]. exact (B ts1 S0).
Qed.
Lemma open_of_term ta a : at_level 6 ta a -> sum_open ta a.
Proof. intros A ts1 q rest S0 P. apply (r_sum _ a ts1); [exact (A ts1 S0)|exact P]. Qed.
Lemma level_term tk o ta a tb b : term_of tk = Some o -> at_level 7 ta a -> at_level 7 tb b -> at_level 6 (ta ++ tk :: tb) (PBin o a b).
Proof.
  intros T A B rest S0. rewrite <- app_assoc. cbn [app goal_of]. apply (r_term _ a (tk :: tb ++ rest)).
  - apply A. destruct tk; try discriminate T; cbn; lia.
  - apply (r_termT tk o a (tb ++ rest) b rest); [exact T| |apply termT_nil, S0]. apply B, (stops_le 6); [lia|exact S0].
Qed.
Lemma level_cmp tk o ta a tb b : cmp_of tk = Some o -> at_level 5 ta a -> at_level 5 tb b -> at_level 4 (ta ++ tk :: tb) (PCmp a [(o, b)]).
Proof.
  intros T A B rest S0. rewrite <- app_assoc. cbn [app goal_of]. apply (r_cmp _ a (tk :: tb ++ rest)).
  - apply A. destruct tk; try discriminate T; cbn; lia.
  - apply (r_cmpT tk o a [] (tb ++ rest) b rest); [exact T| |exact (cmpT_nil a [(o, b)] rest S0)]. apply B, (stops_le 4); [lia|exact S0].
Qed.
Lemma level_not ta a : at_level 3 ta a -> at_level 3 (KwNot :: ta) (PNot a).
Proof. intros A rest S0. cbn [app goal_of]. apply r_not. exact (A rest S0). Qed.
Lemma level_and ta a tb b : at_level 3 ta a -> at_level 3 tb b -> at_level 2 (ta ++ KwAnd :: tb) (PAnd a b).
Proof.
  intros A B rest S0. rewrite <- app_assoc. cbn [app goal_of]. apply (r_and _ a (KwAnd :: tb ++ rest)).
  - apply A. cbn; lia.
  - apply (r_andT a (tb ++ rest) b rest); [|apply andT_nil, S0]. apply B, (stops_le 2); [lia|exact S0].
Qed.
Lemma level_or ta a tb b : at_level 2 ta a -> at_level 2 tb b -> at_level 1 (ta ++ KwOr :: tb) (POr a b).
Proof.
  intros A B rest S0. rewrite <- app_assoc. cbn [app goal_of]. apply (r_or _ a (KwOr :: tb ++ rest)).
  - apply A. cbn; lia.
  - apply (r_orT a (tb ++ rest) b rest); [|apply orT_nil, S0]. apply B, (stops_le 1); [lia|exact S0].
Qed.
Lemma level_cond ta a tc c tb b : at_level 1 ta a -> at_level 1 tc c -> at_level 0 tb b ->
  at_level 0 (ta ++ KwIf :: tc ++ KwElse :: tb) (PCond c a b).
Proof.
  intros A C B rest S0. rewrite <- app_assoc. cbn [app goal_of]. rewrite <- app_assoc. cbn [app].
  apply (r_cond _ a (tc ++ KwElse :: tb ++ rest) c (tb ++ rest)).
  - apply A. cbn; lia.
  - apply C. exact Logic.I.
  - apply B, S0.
Qed.
Lemma opened_index ta a ti i : opened ta a -> at_level 0 ti i -> opened (ta ++ LB :: ti ++ [RB]) (PIndex a i).
Proof.
  intros A B ts1 q rest P. rewrite <- app_assoc. cbn [app]. rewrite <- app_assoc. cbn [app]. apply A.
  assert (B' := B (RB :: ts1) Logic.I). cbn [goal_of] in B'. apply (r_index a _ i ts1); [apply (starts_expr _ _ _ _ B')|exact B'|exact P].
Qed.
Lemma opened_from ta a ti i : opened ta a -> at_level 0 ti i -> opened (ta ++ LB :: ti ++ [Colon; RB]) (PSlice a (Some i) None).
Proof.
  intros A B ts1 q rest P. rewrite <- app_assoc. cbn [app]. rewrite <- app_assoc. cbn [app]. apply A.
  assert (B' := B (Colon :: RB :: ts1) Logic.I). cbn [goal_of] in B'. apply (r_slice_lo a _ i ts1); [apply (starts_expr _ _ _ _ B')|exact B'|exact P].
Qed.
Lemma opened_upto ta a ti i : opened ta a -> at_level 0 ti i -> opened (ta ++ LB :: Colon :: ti ++ [RB]) (PSlice a None (Some i)).
Proof.
  intros A B ts1 q rest P. rewrite <- app_assoc. cbn [app]. rewrite <- app_assoc. cbn [app]. apply A.
  assert (B' := B (RB :: ts1) Logic.I). cbn [goal_of] in B'. apply (r_slice_hi a _ i ts1); [apply (starts_expr _ _ _ _ B')..|exact B'|exact P].
Qed.
Lemma opened_slice ta a ti i tj j : opened ta a -> at_level 0 ti i -> at_level 0 tj j ->
  opened (ta ++ LB :: ti ++ Colon :: tj ++ [RB]) (PSlice a (Some i) (Some j)).
Proof.
  intros A B C ts1 q rest P. rewrite <- app_assoc. cbn [app]. rewrite <- app_assoc. cbn [app]. rewrite <- app_assoc. cbn [app]. apply A.
  assert (B' := B (Colon :: tj ++ RB :: ts1) Logic.I). assert (C' := C (RB :: ts1) Logic.I). cbn [goal_of] in B', C'.
  apply (r_slice a _ i (tj ++ RB :: ts1) j ts1); [apply (starts_expr _ _ _ _ B')|exact B'|apply (starts_expr _ _ _ _ C')|exact C'|exact P].
Qed.
Lemma opened_cols ta a ti i tj j : opened ta a -> at_level 0 ti i -> at_level 0 tj j ->
  opened (ta ++ LB :: Colon :: Comma :: ti ++ Colon :: tj ++ [RB]) (PCols a i j).
Proof.
  intros A B C ts1 q rest P. rewrite <- app_assoc. cbn [app]. rewrite <- app_assoc. cbn [app]. rewrite <- app_assoc. cbn [app]. apply A.
  assert (B' := B (Colon :: tj ++ RB :: ts1) Logic.I). assert (C' := C (RB :: ts1) Logic.I). cbn [goal_of] in B', C'.
  apply (r_cols a _ i (tj ++ RB :: ts1) j ts1); [exact B'|exact C'|exact P].
Qed.
Lemma opened_attr ta a x : opened ta a -> is_num a = false -> opened (ta ++ [Dot; TName x]) (PAttr a x).
Proof. intros A N ts1 q rest P. rewrite <- app_assoc. cbn [app]. apply A. apply r_attr; assumption. Qed.
Definition np_fn (f : string) : pexp := PAttr (PName "np") f.
Lemma opened_np f its : Forall (fun x => at_level 0 (fst x) (snd x)) its ->
  opened ([TName "np"; Dot; TName f; LP] ++ tjoin Comma (map fst its) ++ [RP]) (PCall (np_fn f) (map snd its)).
Proof.
  intros F ts1 q rest P. rewrite <- app_assoc. rewrite <- app_assoc. cbn [app].
  apply (opened_name "np" (Dot :: TName f :: LP :: tjoin Comma (map fst its) ++ RP :: ts1)). apply r_attr; [reflexivity|].
  apply (r_call (np_fn f) _ (map (fun x => (false, snd x)) its) ts1); [apply items_read0; auto|]. rewrite map_map. exact P.
Qed.
(** [np.concatenate([a, np.expand_dims(b, axis=0)], axis=0)] *)
Definition axis_kw : pexp := PKw "axis" (PNum 0).
Lemma kw_tail l ts1 : parses (GItems RP false l) (TName "axis" :: Assign :: TNum 0 :: RP :: ts1) (PList (l ++ [(false, axis_kw)])) ts1.
Proof.
  apply r_kw_last.
  - assert (A := at_lower 0 8 _ _ (Nat.le_0_l _) (le_n _) (opened_level _ _ (opened_name "axis"))). exact (A (Assign :: TNum 0 :: RP :: ts1) Logic.I).
  - assert (A := at_lower 0 7 _ _ (Nat.le_0_l _) ltac:(lia) (level_num 0)). exact (A (RP :: ts1) Logic.I).
Qed.
Lemma opened_np_axis f ta a : at_level 0 ta a ->
  opened ([TName "np"; Dot; TName f; LP] ++ ta ++ [Comma; TName "axis"; Assign; TNum 0; RP]) (PCall (np_fn f) [a; axis_kw]).
Proof.
  intros A ts1 q rest P. rewrite <- app_assoc. rewrite <- app_assoc. cbn [app].
  apply (opened_name "np" (Dot :: TName f :: LP :: ta ++ Comma :: TName "axis" :: Assign :: TNum 0 :: RP :: ts1)). apply r_attr; [reflexivity|].
  apply (r_call (np_fn f) _ [(false, a); (false, axis_kw)] ts1); [|exact P].
  assert (A' := A (Comma :: TName "axis" :: Assign :: TNum 0 :: RP :: ts1) Logic.I). cbn [goal_of] in A'.
  apply (r_item RP false [] _ a (TName "axis" :: Assign :: TNum 0 :: RP :: ts1)); [apply (starts_expr _ _ _ _ A')..|exact A'|]. apply (kw_tail [(false, a)]).
Qed.
Lemma level_list its : Forall (fun x => at_level 0 (fst x) (snd x)) its ->
  at_level 0 (LB :: tjoin Comma (map fst its) ++ [RB]) (PList (map (fun x => (false, snd x)) its)).
Proof.
  intros F. apply (at_lower 0 8); [lia|lia|]. apply opened_level. intros ts1 q rest P. cbn [app]. rewrite <- app_assoc. cbn [app].
  apply (r_prim _ (PList (map (fun x => (false, snd x)) its)) ts1); [|exact P]. apply r_list. apply items_read0; auto.
Qed.
