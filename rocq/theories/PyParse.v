(** Proofs about PyGram.v: reading words and operators, and the rules of the grammar. *)

From Coq Require Import String Ascii List ZArith Bool Lia DecimalString.
From Verif Require Import Ast Semantics Dict SexpModel SexpProofs SmtPrint SmtText SmtMeaning PyGram.
Import ListNotations.
Local Open Scope string_scope.
Local Open Scope list_scope.

(** ** the parser is monotone in its bound *)
Section Mono.
  Variables p q : goal -> list tok -> option (pexp * list tok).
  Hypothesis M : forall g ts x, p g ts = Some x -> q g ts = Some x.
  Ltac one H :=
    match type of H with
    | p ?g ?ts = Some _ => apply M in H
    | match p ?g ?ts with _ => _ end = Some _ =>
        let E := fresh "E" in destruct (p g ts) as [[? ?]|] eqn:E; [rewrite (M _ _ _ E); clear E|discriminate H]
    | match after_mark ?c ?ts with _ => _ end = Some _  => destruct (after_mark c ts) eqn:?; try discriminate H; try exact H
    | match ?l with _ => _ end = Some _  => destruct l; try discriminate H; try exact H
    end.
  Lemma step_mono g ts x : step p g ts = Some x -> step q g ts = Some x.
  Proof.
    intros H. unfold step in *. destruct g.
    17: { cbv zeta in *. destruct (after_mark close ts); [exact H|]. destruct (if stars then after_mark Star ts else None).
          all: (match type of H with match p ?g ?t with _ => _ end = _ => destruct (p g t) as [[a ts1]|] eqn:E0; [rewrite (M _ _ _ E0); clear E0|discriminate H] end);
            destruct (if stars then None else assigned a ts1) as [[y ts2]|];
            [destruct (p GCond ts2) as [[b ts3]|] eqn:E1; [rewrite (M _ _ _ E1); clear E1|discriminate H]|];
            repeat one H; try exact H. }
    all: repeat one H; try exact H.
  Qed.
End Mono.
Lemma parse_S n : forall g ts x, parse n g ts = Some x -> parse (S n) g ts = Some x.
Proof.
  induction n as [|n IH]; intros g ts x H; [discriminate H|].
  change (step (parse (S n)) g ts = Some x). apply (step_mono (parse n)); [exact IH|exact H].
Qed.
Lemma parse_le n m g ts x : n <= m -> parse n g ts = Some x -> parse m g ts = Some x.
Proof. induction 1; intros H0; [exact H0|]. apply parse_S. auto. Qed.

Definition parses (g : goal) (ts : list tok) (p : pexp) (rest : list tok) : Prop := exists n, parse n g ts = Some (p, rest).
Lemma parses_fun g ts p q r r' : parses g ts p r -> parses g ts q r' -> p = q /\ r = r'.
Proof.
  intros [n H] [m K]. apply (parse_le n (n + m)) in H; [|lia]. apply (parse_le m (n + m)) in K; [|lia]. rewrite H in K. injection K as -> ->. auto.
Qed.

(** ** the rules *)
Ltac rule :=
  intros; repeat match goal with H : parses _ _ _ _ |- _ => let n := fresh "n" in let E := fresh "E" in destruct H as [n E] end;
  match goal with
  | E1 : parse ?n1 _ _ = _, E2 : parse ?n2 _ _ = _, E3 : parse ?n3 _ _ = _ |- parses _ _ _ _ =>
      exists (S (n1 + n2 + n3)); apply (parse_le _ (n1 + n2 + n3)) in E1; [|lia]; apply (parse_le _ (n1 + n2 + n3)) in E2; [|lia];
      apply (parse_le _ (n1 + n2 + n3)) in E3; [|lia]
  | E1 : parse ?n1 _ _ = _, E2 : parse ?n2 _ _ = _ |- parses _ _ _ _ =>
      exists (S (n1 + n2)); apply (parse_le _ (n1 + n2)) in E1; [|lia]; apply (parse_le _ (n1 + n2)) in E2; [|lia]
  | E1 : parse ?n1 _ _ = _ |- parses _ _ _ _ => exists (S n1)
  | |- parses _ _ _ _ => exists 1
  end;
  cbn [parse]; unfold step; cbn [after_mark is];
  repeat match goal with
  | |- context [items (PList _)] => progress cbn [items]
  | |- context [after_mark _ (_ :: _)] => progress cbn [after_mark is]
  | |- context [assigned _ (_ :: _)] => progress cbn [assigned]
  | E : parse _ _ _ = Some _ |- context [parse _ _ _] => rewrite E; clear E
  | E : after_mark _ _ = _ |- _ => rewrite E; clear E
  | E : sum_of _ = _ |- _ => rewrite E; clear E
  | E : term_of _ = _ |- _ => rewrite E; clear E
  | E : cmp_of _ = _ |- _ => rewrite E; clear E
  | E : assigned _ _ = _ |- _ => rewrite E; clear E
  | E : is_num _ = _ |- _ => rewrite E; clear E
  end; try reflexivity.

Lemma r_cond ts a ts1 c ts2 b rest : parses GOr ts a (KwIf :: ts1) -> parses GOr ts1 c (KwElse :: ts2) -> parses GCond ts2 b rest ->
  parses GCond ts (PCond c a b) rest.
Proof. rule. Qed.
Lemma r_or ts a ts1 b rest : parses GAnd ts a ts1 -> parses (GOrT a) ts1 b rest -> parses GOr ts b rest.
Proof. rule. Qed.
Lemma r_and ts a ts1 b rest : parses GNot ts a ts1 -> parses (GAndT a) ts1 b rest -> parses GAnd ts b rest.
Proof. rule. Qed.
Lemma r_cmp ts a ts1 b rest : parses GSum ts a ts1 -> parses (GCmpT a []) ts1 b rest -> parses GCmp ts b rest.
Proof. rule. Qed.
Lemma r_sum ts a ts1 b rest : parses GTerm ts a ts1 -> parses (GSumT a) ts1 b rest -> parses GSum ts b rest.
Proof. rule. Qed.
Lemma r_term ts a ts1 b rest : parses GFactor ts a ts1 -> parses (GTermT a) ts1 b rest -> parses GTerm ts b rest.
Proof. rule. Qed.
Lemma r_prim ts a ts1 b rest : parses GAtom ts a ts1 -> parses (GPrimT a) ts1 b rest -> parses GPrim ts b rest.
Proof. rule. Qed.
Lemma r_not ts a rest : parses GNot ts a rest -> parses GNot (KwNot :: ts) (PNot a) rest.
Proof. rule. Qed.
Lemma r_neg ts a rest : parses GFactor ts a rest -> parses GFactor (Minus :: ts) (PNeg a) rest.
Proof. rule. Qed.
Lemma r_orT a ts b ts1 c rest : parses GAnd ts b ts1 -> parses (GOrT (POr a b)) ts1 c rest -> parses (GOrT a) (KwOr :: ts) c rest.
Proof. rule. Qed.
Lemma r_andT a ts b ts1 c rest : parses GNot ts b ts1 -> parses (GAndT (PAnd a b)) ts1 c rest -> parses (GAndT a) (KwAnd :: ts) c rest.
Proof. rule. Qed.
Lemma r_sumT t o a ts b ts1 c rest : sum_of t = Some o -> parses GTerm ts b ts1 -> parses (GSumT (PBin o a b)) ts1 c rest -> parses (GSumT a) (t :: ts) c rest.
Proof. rule. Qed.
Lemma r_termT t o a ts b ts1 c rest : term_of t = Some o -> parses GFactor ts b ts1 -> parses (GTermT (PBin o a b)) ts1 c rest -> parses (GTermT a) (t :: ts) c rest.
Proof. rule. Qed.
Lemma r_cmpT t o a l ts b ts1 c rest : cmp_of t = Some o -> parses GSum ts b ts1 -> parses (GCmpT a (l ++ [(o, b)])) ts1 c rest ->
  parses (GCmpT a l) (t :: ts) c rest.
Proof. rule. Qed.
Lemma r_call a ts l ts1 b rest : parses (GItems RP false []) ts (PList l) ts1 -> parses (GPrimT (PCall a (map snd l))) ts1 b rest ->
  parses (GPrimT a) (LP :: ts) b rest.
Proof. rule. Qed.
Lemma r_index a ts i ts1 b rest : after_mark Colon ts = None -> parses GCond ts i (RB :: ts1) -> parses (GPrimT (PIndex a i)) ts1 b rest ->
  parses (GPrimT a) (LB :: ts) b rest.
Proof. rule. Qed.
Lemma r_slice_lo a ts i ts1 b rest : after_mark Colon ts = None -> parses GCond ts i (Colon :: RB :: ts1) ->
  parses (GPrimT (PSlice a (Some i) None)) ts1 b rest -> parses (GPrimT a) (LB :: ts) b rest.
Proof. rule. Qed.
Lemma r_slice_hi a ts i ts1 b rest : after_mark RB ts = None -> after_mark Comma ts = None -> parses GCond ts i (RB :: ts1) ->
  parses (GPrimT (PSlice a None (Some i))) ts1 b rest -> parses (GPrimT a) (LB :: Colon :: ts) b rest.
Proof. rule. Qed.
Lemma r_slice a ts i ts1 j ts2 b rest : after_mark Colon ts = None -> parses GCond ts i (Colon :: ts1) ->
  after_mark RB ts1 = None -> parses GCond ts1 j (RB :: ts2) ->
  parses (GPrimT (PSlice a (Some i) (Some j))) ts2 b rest -> parses (GPrimT a) (LB :: ts) b rest.
Proof. rule. Qed.
Lemma r_name x rest : parses GAtom (TName x :: rest) (PName x) rest.
Proof. rule. Qed.
Lemma r_num z rest : parses GAtom (TNum z :: rest) (PNum z) rest.
Proof. rule. Qed.
Lemma r_boollit b rest : parses GAtom (TBoolLit b :: rest) (PBoolE b) rest.
Proof. rule. Qed.
Lemma r_unit rest : parses GAtom (LP :: RP :: rest) (PTuple []) rest.
Proof. rule. Qed.
Lemma r_paren ts a rest : after_mark RP ts = None -> parses GCond ts a (RP :: rest) -> parses GAtom (LP :: ts) a rest.
Proof. rule. Qed.
Lemma r_tuple ts a ts1 l rest : after_mark RP ts = None -> parses GCond ts a (Comma :: ts1) -> parses (GItems RP false []) ts1 (PList l) rest ->
  parses GAtom (LP :: ts) (PTuple (a :: map snd l)) rest.
Proof. rule. Qed.
Lemma r_list ts l rest : parses (GItems RB true []) ts l rest -> parses GAtom (LB :: ts) l rest.
Proof. rule. Qed.
Lemma r_end c l ts rest stars : after_mark c ts = Some rest -> parses (GItems c stars l) ts (PList l) rest.
Proof. rule. Qed.
Lemma r_item c stars l ts a ts1 b rest : after_mark c ts = None -> after_mark Star ts = None -> parses GCond ts a (Comma :: ts1) ->
  parses (GItems c stars (l ++ [(false, a)])) ts1 b rest -> parses (GItems c stars l) ts b rest.
Proof. destruct stars; rule. Qed.
Lemma r_last c stars l ts a ts1 rest : after_mark c ts = None -> after_mark Star ts = None -> parses GCond ts a ts1 ->
  after_mark Comma ts1 = None -> after_mark c ts1 = Some rest -> parses (GItems c stars l) ts (PList (l ++ [(false, a)])) rest.
Proof.
  intros A1 A2 P B1 B2.
  assert (N : assigned a ts1 = None) by (destruct ts1 as [|[] ts1]; try reflexivity; destruct c; discriminate B2).
  destruct stars; revert A1 A2 P B1 B2 N; rule.
Qed.
(** keyword arguments, attributes, columns *)
Lemma r_kw_last l x ts a rest : parses GCond (TName x :: Assign :: ts) (PName x) (Assign :: ts) -> parses GCond ts a (RP :: rest) ->
  parses (GItems RP false l) (TName x :: Assign :: ts) (PList (l ++ [(false, PKw x a)])) rest.
Proof. rule. Qed.
Lemma r_attr a x ts b rest : is_num a = false -> parses (GPrimT (PAttr a x)) ts b rest -> parses (GPrimT a) (Dot :: TName x :: ts) b rest.
Proof. rule. Qed.
Lemma r_cols a ts i ts1 j ts2 b rest : parses GCond ts i (Colon :: ts1) -> parses GCond ts1 j (RB :: ts2) ->
  parses (GPrimT (PCols a i j)) ts2 b rest -> parses (GPrimT a) (LB :: Colon :: Comma :: ts) b rest.
Proof. rule. Qed.
Lemma r_star l ts a ts1 b rest : parses GSum ts a (Comma :: ts1) ->
  parses (GItems RB true (l ++ [(true, a)])) ts1 b rest -> parses (GItems RB true l) (Star :: ts) b rest.
Proof. rule. Qed.
Lemma r_last_star l ts a rest : parses GSum ts a (RB :: rest) -> parses (GItems RB true l) (Star :: ts) (PList (l ++ [(true, a)])) rest.
Proof. rule. Qed.

(** ** how tightly tokens bind *)
Definition binds (t : tok) : option nat :=
  match t with
  | KwIf => Some 0 | KwOr => Some 1 | KwAnd => Some 2
  | CEq | CLt | CLe | CGt | CGe => Some 4
  | Plus | Minus => Some 5 | Star | SSlash | Percent | Slash => Some 6
  | LP | LB | Dot => Some 8
  | _ => None
  end.
(** an expression of level [l] stops before [ts] *)
Definition stops (l : nat) (ts : list tok) : Prop :=
  match ts with t :: _ => match binds t with Some m => m < l | None => True end | [] => True end.
Definition goal_of (l : nat) : goal :=
  match l with 0 => GCond | 1 => GOr | 2 => GAnd | 3 => GNot | 4 => GCmp | 5 => GSum | 6 => GTerm | 7 => GFactor | _ => GPrim end.
Lemma stops_le l m ts : l <= m -> stops l ts -> stops m ts.
Proof. intros L. unfold stops. destruct ts as [|t ts]; auto. destruct (binds t); auto. lia. Qed.

Lemma no_minus n ts : parse n GPrim (Minus :: ts) = None.
Proof. destruct n as [|[|n]]; reflexivity. Qed.
Lemma no_not n ts : parse n GCmp (KwNot :: ts) = None.
Proof. do 6 (destruct n as [|n]; [reflexivity|]). reflexivity. Qed.

Lemma orT_nil a ts : stops 1 ts -> parses (GOrT a) ts a ts.
Proof. intros S0. exists 1. destruct ts as [|t ts]; [reflexivity|]. destruct t; try reflexivity. cbn in S0. lia. Qed.
Lemma andT_nil a ts : stops 2 ts -> parses (GAndT a) ts a ts.
Proof. intros S0. exists 1. destruct ts as [|t ts]; [reflexivity|]. destruct t; try reflexivity. cbn in S0. lia. Qed.
Lemma cmpT_nil a l ts : stops 4 ts -> parses (GCmpT a l) ts (match l with [] => a | _ => PCmp a l end) ts.
Proof. intros S0. exists 1. destruct ts as [|t ts]; [reflexivity|]. destruct t; try reflexivity; cbn in S0; lia. Qed.
Lemma sumT_nil a ts : stops 5 ts -> parses (GSumT a) ts a ts.
Proof. intros S0. exists 1. destruct ts as [|t ts]; [reflexivity|]. destruct t; try reflexivity; cbn in S0; lia. Qed.
Lemma termT_nil a ts : stops 6 ts -> parses (GTermT a) ts a ts.
Proof. intros S0. exists 1. destruct ts as [|t ts]; [reflexivity|]. destruct t; try reflexivity; cbn in S0; lia. Qed.
Lemma primT_nil a ts : stops 8 ts -> parses (GPrimT a) ts a ts.
Proof. intros S0. exists 1. destruct ts as [|t ts]; [reflexivity|]. destruct t; try reflexivity; cbn in S0; lia. Qed.

Lemma lift1 l ts p rest : l < 8 -> parses (goal_of (S l)) ts p rest -> stops l rest -> parses (goal_of l) ts p rest.
Proof.
  intros L P S0. destruct l as [|[|[|[|[|[|[|[|l]]]]]]]]; [..|lia]; cbn [goal_of] in *.
  - destruct P as [n E]. exists (S n). cbn [parse step]. rewrite E. destruct rest as [|t rest]; [reflexivity|]. destruct t; try reflexivity. cbn in S0. lia.
  - apply (r_or _ _ _ _ _ P). apply orT_nil, S0.
  - apply (r_and _ _ _ _ _ P). apply andT_nil, S0.
  - destruct P as [n E]. exists (S n). cbn [parse step]. destruct ts as [|t ts]; [exact E|]. destruct t; try exact E. rewrite no_not in E. discriminate E.
  - apply (r_cmp _ _ _ _ _ P). exact (cmpT_nil p [] rest S0).
  - apply (r_sum _ _ _ _ _ P). apply sumT_nil, S0.
  - apply (r_term _ _ _ _ _ P). apply termT_nil, S0.
  - destruct P as [n E]. exists (S n). cbn [parse step]. destruct ts as [|t ts]; [exact E|]. destruct t; try exact E. rewrite no_minus in E. discriminate E.
Qed.
Lemma lift l m ts p rest : l <= m -> m <= 8 -> parses (goal_of m) ts p rest -> stops l rest -> parses (goal_of l) ts p rest.
Proof.
  intros L. induction L as [|m L IH]; intros M P S0; [exact P|]. apply IH; [lia| |exact S0].
  apply lift1; [lia|exact P|]. apply (stops_le l); [exact L|exact S0].
Qed.

(** an expression does not start with a punctuation mark *)
Lemma no_mark0 c t n ts : is c t = true -> parse n GAtom (t :: ts) = None.
Proof. intros H. destruct n as [|n]; [reflexivity|]. destruct c, t; try discriminate H; reflexivity. Qed.
Lemma no_mark c t n ts : is c t = true -> parse n GCond (t :: ts) = None.
Proof.
  intros H. assert (A : forall n, parse n GAtom (t :: ts) = None) by (intros; apply (no_mark0 c); exact H).
  assert (T1 : match t with Minus => False | KwNot => False | _ => True end) by (destruct c, t; try discriminate H; exact Logic.I).
  assert (B : forall n, parse n GPrim (t :: ts) = None) by (intros [|m]; [reflexivity|]; cbn [parse step]; rewrite A; reflexivity).
  assert (D : forall n, parse n GFactor (t :: ts) = None) by (intros [|m]; [reflexivity|]; cbn [parse step]; rewrite B; destruct t; tauto).
  assert (E : forall n, parse n GTerm (t :: ts) = None) by (intros [|m]; [reflexivity|]; cbn [parse step]; rewrite D; reflexivity).
  assert (F : forall n, parse n GSum (t :: ts) = None) by (intros [|m]; [reflexivity|]; cbn [parse step]; rewrite E; reflexivity).
  assert (G : forall n, parse n GCmp (t :: ts) = None) by (intros [|m]; [reflexivity|]; cbn [parse step]; rewrite F; reflexivity).
  assert (J : forall n, parse n GNot (t :: ts) = None) by (intros [|m]; [reflexivity|]; cbn [parse step]; rewrite G; destruct t; tauto).
  assert (K : forall n, parse n GAnd (t :: ts) = None) by (intros [|m]; [reflexivity|]; cbn [parse step]; rewrite J; reflexivity).
  assert (O : forall n, parse n GOr (t :: ts) = None) by (intros [|m]; [reflexivity|]; cbn [parse step]; rewrite K; reflexivity).
  destruct n as [|m]; [reflexivity|]; cbn [parse step]; rewrite O; reflexivity.
Qed.
Lemma starts_expr c ts p rest : parses GCond ts p rest -> after_mark c ts = None.
Proof.
  intros [n E]. destruct ts as [|t ts]; [reflexivity|]. cbn [after_mark]. destruct (is c t) eqn:X; [|reflexivity].
  rewrite (no_mark c) in E by exact X. discriminate E.
Qed.

(** ** operators with any number of operands *)
Fixpoint tjoin (sep : tok) (l : list (list tok)) : list tok :=
  match l with [] => [] | [x] => x | x :: r => x ++ sep :: tjoin sep r end.
Definition at_level (l : nat) (ts : list tok) (p : pexp) : Prop := forall rest, stops l rest -> parses (goal_of l) (ts ++ rest) p rest.
Lemma at_lower l m ts p : l <= m -> m <= 8 -> at_level m ts p -> at_level l ts p.
Proof. intros L M A rest S0. apply (lift l m); auto. apply A. apply (stops_le l); auto. Qed.

Section Chain.
  Variables (T : pexp -> goal) (L : nat) (tk : tok) (mk : pexp -> pexp -> pexp).
  Hypothesis Tnil : forall a ts, stops L ts -> parses (T a) ts a ts.
  Hypothesis Tcons : forall a ts b ts1 c rest, parses (goal_of (S L)) ts b ts1 -> parses (T (mk a b)) ts1 c rest -> parses (T a) (tk :: ts) c rest.
  Hypothesis Thead : forall ts a ts1 b rest, parses (goal_of (S L)) ts a ts1 -> parses (T a) ts1 b rest -> parses (goal_of L) ts b rest.
  Hypothesis Tk : binds tk = Some L.

  Lemma chain_tail its : Forall (fun x => at_level (S L) (fst x) (snd x)) its -> forall a rest, stops L rest ->
    parses (T a) (concat (map (fun x => tk :: fst x) its) ++ rest) (fold_left mk (map snd its) a) rest.
  Proof.
    induction 1 as [|[ts p] its A F IH]; intros a rest S0; [apply Tnil, S0|].
    cbn [map concat fold_left fst snd]. cbn [app]. rewrite <- app_assoc. apply (Tcons _ _ p (concat (map (fun x => tk :: fst x) its) ++ rest)).
    - apply A. destruct its as [|y its]; [cbn; apply (stops_le L); [lia|exact S0]|]. cbn. rewrite Tk. lia.
    - apply IH, S0.
  Qed.
  Lemma tjoin_cons ts its : tjoin tk (ts :: map fst its) = ts ++ concat (map (fun x : list tok * pexp => tk :: fst x) its).
  Proof.
    revert ts. induction its as [|y its IH]; intros ts; [cbn; rewrite app_nil_r; reflexivity|]. cbn [map].
    change (tjoin tk (ts :: fst y :: map fst its)) with (ts ++ tk :: tjoin tk (fst y :: map fst its)). rewrite IH. reflexivity.
  Qed.
  Lemma chain_level ts p its : Forall (fun x => at_level (S L) (fst x) (snd x)) ((ts, p) :: its) ->
    at_level L (tjoin tk (ts :: map fst its)) (fold_left mk (map snd its) p).
  Proof.
    intros F rest S0. inversion F as [|? ? A F']; subst. rewrite tjoin_cons, <- app_assoc.
    apply (Thead _ p (concat (map (fun x : list tok * pexp => tk :: fst x) its) ++ rest)); [|apply chain_tail; assumption].
    apply A. destruct its as [|y its]; [cbn; apply (stops_le L); [lia|exact S0]|]. cbn. rewrite Tk. lia.
  Qed.
  (** the same, when more operands follow *)
  Lemma chain_tail_open its : Forall (fun x => at_level (S L) (fst x) (snd x)) its -> forall a ts1 q rest, stops (S L) ts1 ->
    parses (T (fold_left mk (map snd its) a)) ts1 q rest ->
    parses (T a) (concat (map (fun x => tk :: fst x) its) ++ ts1) q rest.
  Proof.
    induction 1 as [|[ts p] its A F IH]; intros a ts1 q rest S0 P; [exact P|].
    cbn [map concat fst snd]. cbn [app]. rewrite <- app_assoc. apply (Tcons _ _ p (concat (map (fun x => tk :: fst x) its) ++ ts1)).
    - apply A. destruct its as [|y its]; [exact S0|]. cbn. rewrite Tk. lia.
    - apply IH; [exact S0|exact P].
  Qed.
  Lemma chain_open ts p its ts1 q rest : Forall (fun x => at_level (S L) (fst x) (snd x)) ((ts, p) :: its) -> stops (S L) ts1 ->
    parses (T (fold_left mk (map snd its) p)) ts1 q rest ->
    parses (goal_of L) (tjoin tk (ts :: map fst its) ++ ts1) q rest.
  Proof.
    intros F S0 P. inversion F as [|? ? A F']; subst. rewrite tjoin_cons, <- app_assoc.
    apply (Thead _ p (concat (map (fun x : list tok * pexp => tk :: fst x) its) ++ ts1)); [|apply chain_tail_open; assumption].
    apply A. destruct its as [|y its]; [exact S0|]. cbn. rewrite Tk. lia.
  Qed.
End Chain.

(** ** lists of items *)
Lemma items_read c its : c = RP \/ c = RB -> Forall (fun x => at_level 0 (fst x) (snd x)) its -> its <> [] -> forall l rest stars,
  parses (GItems c stars l) (tjoin Comma (map fst its) ++ c :: rest) (PList (l ++ map (fun x => (false, snd x)) its)) rest.
Proof.
  intros Cc. assert (Ic : forall r, after_mark c (c :: r) = Some r) by (destruct Cc; subst c; reflexivity).
  assert (Ic2 : forall r, after_mark Comma (c :: r) = None) by (destruct Cc; subst c; reflexivity).
  assert (Sc : forall r, stops 0 (c :: r)) by (destruct Cc; subst c; exact (fun _ => Logic.I)).
  induction 1 as [|[ts p] its A F IH]; intros N l rest stars; [congruence|].
  destruct its as [|y its].
  - cbn [map tjoin fst snd]. specialize (A (c :: rest) (Sc rest)). cbn [goal_of fst snd] in A. apply (r_last c stars l _ p (c :: rest)); auto; apply (starts_expr _ _ _ _ A).
  - assert (A' := A (Comma :: tjoin Comma (map fst (y :: its)) ++ c :: rest) Logic.I). cbn [goal_of fst snd] in A'.
    replace (tjoin Comma (map fst ((ts, p) :: y :: its)) ++ c :: rest) with (ts ++ Comma :: tjoin Comma (map fst (y :: its)) ++ c :: rest)
      by (cbn [map tjoin fst]; rewrite <- app_assoc; reflexivity).
    apply (r_item c stars l _ p (tjoin Comma (map fst (y :: its)) ++ c :: rest)); try apply (starts_expr _ _ _ _ A'); [exact A'|].
    replace (l ++ map (fun x => (false, snd x)) ((ts, p) :: y :: its)) with ((l ++ [(false, p)]) ++ map (fun x => (false, snd x)) (y :: its))
      by (rewrite <- app_assoc; reflexivity).
    apply IH. discriminate.
Qed.
Lemma items_read0 c its : c = RP \/ c = RB -> Forall (fun x => at_level 0 (fst x) (snd x)) its -> forall rest stars,
  parses (GItems c stars []) (tjoin Comma (map fst its) ++ c :: rest) (PList (map (fun x => (false, snd x)) its)) rest.
Proof.
  intros Cc F rest stars. destruct its as [|x its].
  - cbn. apply r_end. destruct Cc; subst c; reflexivity.
  - apply (items_read c (x :: its) Cc F); discriminate.
Qed.

(** ** tokens of texts *)
Definition brk (s : string) : bool := match s with EmptyString => true | String c _ => negb (word_char c) end.
Definition lexes (s : string) (ts : list tok) : Prop := forall rest, brk rest = true -> lex "" (s ++ rest) = ts ++ lex "" rest.
Lemma lex_word w : sall word_char w = true -> forall acc rest, lex acc (w ++ rest) = lex (acc ++ w) rest.
Proof.
  induction w as [|c w IH]; intros H acc rest; [cbn; f_equal; induction acc; cbn; congruence|].
  cbn [sall] in H. apply andb_true_iff in H. destruct H as [Hc Hw]. cbn [append lex]. rewrite Hc, (IH Hw). f_equal. rewrite app_s. reflexivity.
Qed.
Lemma lexes_word w : sall word_char w = true -> w <> "" -> lexes w [word_tok w].
Proof.
  intros H N rest B. rewrite (lex_word w H). cbn [append]. destruct w as [|c w]; [congruence|].
  destruct rest as [|d rest]; [reflexivity|]. cbn [brk] in B. apply negb_true_iff in B. cbn [lex]. rewrite B. cbn [flush app]. reflexivity.
Qed.
Lemma lex_space s : lex "" (String " " s) = lex "" s.
Proof. reflexivity. Qed.
(** a mark that is not the first character of a longer operator *)
Definition solo (c : ascii) : bool := negb (word_char c) && negb (Ascii.eqb c " ") && negb (smem (String c "") ["/"; "="; "<"; ">"; "-"; "*"; "!"]).
Lemma lex_solo c s : solo c = true -> lex "" (String c s) = op1 c :: lex "" s.
Proof.
  unfold solo. intros H. apply andb_true_iff in H. destruct H as [H N]. apply andb_true_iff in H. destruct H as [W S0].
  apply negb_true_iff in W, S0, N. cbn [lex]. rewrite W, S0. cbn [flush app]. destruct s as [|d s]; [reflexivity|].
  assert (X : op2 c d = None); [|rewrite X; reflexivity].
  unfold op2. cbn [smem existsb] in N. repeat (apply orb_false_iff in N; destruct N as [? N]).
  repeat match goal with H : String.eqb (String c "") (String ?a "") = false |- _ =>
    apply String.eqb_neq in H; assert (Ascii.eqb c a = false) by (apply Ascii.eqb_neq; intros ->; apply H; reflexivity); clear H end.
  cbn [dget String.eqb]. repeat match goal with H : Ascii.eqb c ?a = false |- _ => rewrite H; clear H end. reflexivity.
Qed.
