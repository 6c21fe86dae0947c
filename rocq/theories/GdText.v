(** The texts of the instructions for Gaudi: each one reads back as the instruction that
    GdSem.v runs. *)

From Coq Require Import String Ascii List ZArith Bool Lia DecimalString.
From Verif Require Import Ast Dict Semantics SmtText SmtPrint PyGram PyParse PyMean UtilProofs NpModel NpProofs NpProofs3 AlProofs GdModel GdSem GdProofs1 GdProofs2 GdProofs3.
Import ListNotations.
Local Open Scope nat_scope.
Local Open Scope string_scope.
Local Open Scope list_scope.

(** ** specification *)

(** The expressions in the instructions are written alike in C and in Python (PyGram.v):
    names, numbers, calls, fields and single operators.  "0" is a number. *)
Definition c_bin (op : string) : option bin := dget [("+", OAdd); ("-", OSub); ("*", OMul); ("/", ODiv); ("%", OMod)] op.
Fixpoint as_c (e : cexp) : option pexp :=
  match e with
  | CId x => Some (if String.eqb x "0" then PNum 0 else PName x)
  | CLit (PInt z) => Some (if Z.ltb z 0 then PNeg (PNum (- z)) else PNum z)
  | CLit _ => None
  | CField e i => option_map (fun p => PAttr p ("v" ++ string_of_nat i)%string) (as_c e)
  | CBin op e f => match c_bin op, as_c e, as_c f with Some o, Some p, Some q => Some (PBin o p q) | _, _, _ => None end
  | CApp f args => option_map (PCall (PName f)) (mapO as_c args)
  | CSet _ _ _ => None
  end.
Definition c_type (t : bt) : string :=
  match t with
  | UCHAR256 => "uchar256" | FLOAT64 => "float64" | INT64 => "int64" | UINT256 => "uint256" | INT128 => "int128"
  | FLOAT256 => "float256" | UINT8 => "uint8_t" | FLOATC => "float" | INT32C => "int32_t"
  end.
(** the tokens of an expression *)
Definition tokens_of (ts : list tok) (e : cexp) : Prop := exists p n, as_c e = Some p /\ parse n GCond ts = Some (p, []).
(** the statement in a line of text, up to its semicolon: [type x = e], [x = e], [type x] or
    [x.vj = e] *)
Definition statement (s : string) (i : instr) : Prop :=
  exists u ts, s = (u ++ ";")%string /\
  match i with
  | mkI (Some x) (Some t) (Some e) => lex "" u = TName (c_type t) :: TName x :: Assign :: ts /\ tokens_of ts e
  | mkI (Some x) None (Some e) => lex "" u = TName x :: Assign :: ts /\ tokens_of ts e
  | mkI (Some x) (Some t) None => lex "" u = [TName (c_type t); TName x]
  | mkI None None (Some (CSet x j e)) => lex "" u = TName x :: Dot :: TName ("v" ++ string_of_nat j)%string :: Assign :: ts /\ tokens_of ts e
  | _ => False
  end.
(** the names of variables are names and the literals are numbers *)
Fixpoint plain (e : expr) : bool :=
  match e with
  | Atom _ => true
  | Node (KVar | KNonTerm) _ (Atom (PStr x) :: _) => py_name x
  | Node KLit _ (Atom a :: _) => match a with PInt _ => true | _ => false end
  | Node _ _ args => forallb plain args
  end.

(** ** the forms of the expressions *)
Definition id_ok (x : string) : Prop := x = "0" \/ py_name x = true.
Inductive part : cexp -> Prop :=
| p_id x : id_ok x -> part (CId x)
| p_field x i : py_name x = true -> part (CField (CId x) i)
| p_app f args : py_name f = true -> Forall part args -> part (CApp f args).
Inductive formed : cexp -> Prop :=
| m_part e : part e -> formed e
| m_lit z : formed (CLit (PInt z))
| m_bin op x y : c_bin op <> None -> py_name x = true -> py_name y = true -> formed (CBin op (CId x) (CId y)).
Definition shaped (i : instr) : Prop :=
  match i with
  | mkI (Some x) (Some _) (Some e) | mkI (Some x) None (Some e) => py_name x = true /\ formed e
  | mkI (Some x) (Some _) None => py_name x = true
  | mkI None None (Some (CSet x _ e)) => py_name x = true /\ part e
  | _ => False
  end.
Lemma shaped_dest i x : shaped i -> i_dest i = Some x -> py_name x = true.
Proof. destruct i as [[y|] [t|] [e|]]; cbn; try discriminate; try tauto; intros H [= <-]; try apply H; tauto. Qed.

Lemma string_app_nil s : (s ++ "" = s)%string.
Proof. induction s; cbn; congruence. Qed.
Lemma digits_word u : sall word_char (NilEmpty.string_of_uint u) = true.
Proof. induction u; cbn; auto. Qed.
Lemma word_nat n : sall word_char (string_of_nat n) = true.
Proof. unfold string_of_nat. apply digits_word. Qed.
Lemma vname n : py_name ("v" ++ string_of_nat n)%string = true.
Proof.
  assert (W := word_nat n). change ("v" ++ string_of_nat n)%string with (String "v" (string_of_nat n)). generalize dependent (string_of_nat n). intros w W.
  unfold py_name. rewrite W. cbn. reflexivity.
Qed.
Lemma fresh_name n : py_name (fresh n) = true.
Proof. apply vname. Qed.

(** ** reading *)
Lemma part_reads e : part e -> exists ts p, as_c e = Some p /\ lexes (ctext e) ts /\ (at_level 8 ts p) /\ (is_num p = false -> opened ts p).
Proof.
  revert e. fix IH 2. intros e [x X|x i X|f args F A].
  - destruct X as [->|X].
    + exists [TNum 0], (PNum 0). split; [reflexivity|]. split; [apply (word_num 0); lia|]. split; [|discriminate].
      intros rest S0. apply (r_prim _ (PNum 0) rest); [apply r_num|apply primT_nil, S0].
    + exists [TName x], (PName x). split; [cbn; destruct (String.eqb_spec x "0") as [->|]; [discriminate X|reflexivity]|]. split; [apply word_name, X|].
      split; [apply opened_level|intros _]; apply opened_name.
  - exists [TName x; Dot; TName ("v" ++ string_of_nat i)%string], (PAttr (PName x) ("v" ++ string_of_nat i)%string). split; [cbn [as_c]; destruct (String.eqb_spec x "0") as [->|]; [discriminate X|reflexivity]|].
    split.
    + change (ctext (CField (CId x) i)) with (x ++ String "." ("v" ++ string_of_nat i))%string. apply (lexes_cat x [TName x] (String "." ("v" ++ string_of_nat i)%string) [Dot; TName ("v" ++ string_of_nat i)%string]); [apply word_name, X| |reflexivity|discriminate].
      apply (lexes_op "." _ [TName ("v" ++ string_of_nat i)%string]); [reflexivity|]. apply word_name, vname.
    + assert (O : opened ([TName x] ++ [Dot; TName ("v" ++ string_of_nat i)%string]) (PAttr (PName x) ("v" ++ string_of_nat i)%string)) by (apply opened_attr; [apply opened_name|reflexivity]).
      split; [apply opened_level|intros _]; exact O.
  - assert (L : exists its, mapO as_c args = Some (map snd its) /\ Forall2 lexes (map ctext args) (map fst its) /\ Forall (fun x => at_level 0 (fst x) (snd x)) its).
    { clear F. revert args A. fix IHl 2. intros _ [|a args Pa A]; [exists []; repeat constructor|]. destruct (IH a Pa) as (ts & p & E & X & L & _). destruct (IHl args A) as (its & E' & X' & L').
      exists ((ts, p) :: its). cbn [mapO map fst snd]. rewrite E, E'. split; [reflexivity|]. split; [constructor; assumption|]. constructor; [|exact L']. apply (at_lower 0 8); [lia|lia|exact L]. }
    destruct L as (its & E & X & L). exists ([TName f] ++ LP :: tjoin Comma (map fst its) ++ [RP]), (PCall (PName f) (map snd its)). cbn [as_c]. rewrite E. split; [reflexivity|]. split.
    + change (ctext (CApp f args)) with (f ++ ("(" ++ join ", " (map ctext args) ++ ")"))%string. apply lexes_cat; [apply word_name, F| |reflexivity|discriminate].
      apply lexes_paren. apply (lexes_join ", " Comma); [apply sep_comma|exact X].
    + assert (O : opened ([TName f] ++ LP :: tjoin Comma (map fst its) ++ [RP]) (PCall (PName f) (map snd its))) by (apply opened_fn; [apply opened_name|reflexivity|exact L]).
      split; [apply opened_level|intros _]; exact O.
Qed.

Lemma bin_sep op o : c_bin op = Some o -> exists tk, sep_tok (" " ++ op ++ " ") tk /\
  ((o = OAdd \/ o = OSub) /\ sum_of tk = Some o \/ (o = OMul \/ o = ODiv \/ o = OMod) /\ term_of tk = Some o).
Proof.
  unfold c_bin. cbn [dget]. repeat (match goal with |- (if String.eqb ?a ?b then _ else _) = _ -> _ => destruct (String.eqb_spec a b) as [->|_] end; [intros [= <-]|]); [| | | | |discriminate];
  [exists Plus|exists Minus|exists Star|exists Slash|exists Percent]; (split; [sept|cbn; auto 6]).
Qed.
Lemma formed_reads e : formed e -> exists ts p, as_c e = Some p /\ lexes (ctext e) ts /\ at_level 0 ts p.
Proof.
  intros [e' P|z|op x y O X Y].
  - destruct (part_reads e' P) as (ts & p & A & B & C & _). exists ts, p. split; [exact A|]. split; [exact B|]. apply (at_lower 0 8); [lia|lia|exact C].
  - cbn [as_c ctext str_atom]. destruct (Z.ltb_spec z 0) as [N|N].
    + exists [Minus; TNum (- z)], (PNeg (PNum (- z))). split; [reflexivity|]. split; [apply word_neg, N|]. apply (at_lower 0 7); [lia|lia|].
      intros rest S1. cbn [app goal_of]. apply r_neg. apply (lift 7 8); [lia|lia| |exact S1]. apply (r_prim _ (PNum (- z)) rest); [apply r_num|]. apply primT_nil. apply (stops_le 7); [lia|exact S1].
    + exists [TNum z], (PNum z). split; [reflexivity|]. split; [apply word_num, N|]. apply (at_lower 0 8); [lia|lia|].
      intros rest S0. apply (r_prim _ (PNum z) rest); [apply r_num|apply primT_nil, S0].
  - destruct (c_bin op) as [o|] eqn:Ob; [|congruence]. clear O. destruct (bin_sep op o Ob) as (tk & S0 & T). exists ([TName x] ++ tk :: [TName y]), (PBin o (PName x) (PName y)).
    assert (Zx : forall w, py_name w = true -> as_c (CId w) = Some (PName w)) by (intros w W; cbn; destruct (String.eqb_spec w "0") as [->|]; [discriminate W|reflexivity]).
    change (as_c (CBin op (CId x) (CId y))) with (match c_bin op, as_c (CId x), as_c (CId y) with Some o, Some p, Some q => Some (PBin o p q) | _, _, _ => None end).
    rewrite Ob, (Zx x X), (Zx y Y). split; [reflexivity|]. split.
    + change (ctext (CBin op (CId x) (CId y))) with (x ++ " " ++ op ++ " " ++ y)%string. replace (x ++ " " ++ op ++ " " ++ y)%string with (x ++ (" " ++ op ++ " ") ++ y)%string by strs.
      apply lexes_sep; [exact S0|apply word_name, X|apply word_name, Y].
    + cbn [app].
      assert (Nm : forall w, at_level 8 [TName w] (PName w)) by (intros w; apply opened_level, opened_name).
      assert (St : forall l rest, stops l rest -> forall m, l <= m -> stops m rest) by (intros l rest H m Hm; apply (stops_le l); assumption).
      destruct T as [(_ & T)|(_ & T)].
      * apply (at_lower 0 5); [lia|lia|]. intros rest S1. cbn [app goal_of]. apply (r_sum _ (PName x) (tk :: TName y :: rest)).
        { assert (Q : stops 6 (tk :: TName y :: rest)) by (destruct tk; try discriminate T; cbn; lia). exact (at_lower 6 8 _ _ ltac:(lia) ltac:(lia) (Nm x) _ Q). }
        apply (r_sumT tk o _ _ (PName y) rest); [exact T| |apply sumT_nil, S1]. exact (at_lower 6 8 _ _ ltac:(lia) ltac:(lia) (Nm y) rest (St 5 rest S1 6 ltac:(lia))).
      * apply (at_lower 0 6); [lia|lia|]. intros rest S1. cbn [app goal_of]. apply (r_term _ (PName x) (tk :: TName y :: rest)).
        { assert (Q : stops 7 (tk :: TName y :: rest)) by (destruct tk; try discriminate T; cbn; lia). exact (at_lower 7 8 _ _ ltac:(lia) ltac:(lia) (Nm x) _ Q). }
        apply (r_termT tk o _ _ (PName y) rest); [exact T| |apply termT_nil, S1]. exact (at_lower 7 8 _ _ ltac:(lia) ltac:(lia) (Nm y) rest (St 6 rest S1 7 ltac:(lia))).
Qed.

Lemma lexes_whole s ts : lexes s ts -> lex "" s = ts.
Proof. intros L. specialize (L "" eq_refl). rewrite string_app_nil in L. rewrite L. cbn. apply app_nil_r. Qed.
Lemma level_tokens e ts p : as_c e = Some p -> at_level 0 ts p -> tokens_of ts e.
Proof. intros A L. destruct (L [] Logic.I) as (n & P). rewrite app_nil_r in P. exists p, n. auto. Qed.
Lemma bt_name t : py_name (c_type t) = true /\ bt_text t = c_type t.
Proof. destruct t; split; reflexivity. Qed.
Lemma sep_assign : sep_tok " = " Assign. Proof. sept. Qed.
Lemma lexes_gap a ts b us : lexes a ts -> lexes b us -> lexes (a ++ " " ++ b) (ts ++ us).
Proof.
  intros A B. apply lexes_cat; [exact A| |reflexivity|discriminate]. intros rest R. change ((" " ++ b) ++ rest)%string with (String " " (b ++ rest)). rewrite lex_space. apply B, R.
Qed.

Lemma shaped_reads i : shaped i -> exists s, instr_str i = Ok s /\ statement s i.
Proof.
  destruct i as [[x|] [t|] [e|]]; cbn [shaped]; try contradiction.
  - intros (X & F). destruct (formed_reads e F) as (ts & p & A & L & P). destruct (bt_name t) as (N & Q). eexists. split; [reflexivity|]. cbn [i_dest i_type i_exp].
    exists (bt_text t ++ " " ++ x ++ " = " ++ ctext e)%string, ts. split; [strs|]. split; [|eapply level_tokens; eauto]. rewrite Q.
    apply (lexes_whole _ ([TName (c_type t)] ++ [TName x] ++ Assign :: ts)). apply lexes_gap; [apply word_name, N|]. apply lexes_sep; [apply sep_assign|apply word_name, X|exact L].
  - intros X. destruct (bt_name t) as (N & Q). eexists. split; [reflexivity|]. exists (bt_text t ++ " " ++ x)%string, []. split; [strs|]. rewrite Q.
    apply (lexes_whole _ ([TName (c_type t)] ++ [TName x])). apply lexes_gap; apply word_name; assumption.
  - intros (X & F). destruct (formed_reads e F) as (ts & p & A & L & P). eexists. split; [reflexivity|].
    exists (x ++ " = " ++ ctext e)%string, ts. split; [strs|]. split; [|eapply level_tokens; eauto].
    apply (lexes_whole _ ([TName x] ++ Assign :: ts)). apply lexes_sep; [apply sep_assign|apply word_name, X|exact L].
  - destruct e as [| | | | |x j e]; try contradiction. intros (X & F). destruct (part_reads e F) as (ts & p & A & L & P & _). eexists. split; [reflexivity|].
    exists (x ++ ".v" ++ string_of_nat j ++ " = " ++ ctext e)%string, ts. split; [cbn [ctext i_dest i_type i_exp]; strs|]. split; [|eapply level_tokens; [exact A|apply (at_lower 0 8); [lia|lia|exact P]]].
    apply (lexes_whole _ ([TName x] ++ Dot :: [TName ("v" ++ string_of_nat j)%string] ++ Assign :: ts)).
    apply lexes_cat; [apply word_name, X| |reflexivity|discriminate]. change (".v" ++ string_of_nat j ++ " = " ++ ctext e)%string with (String "." (("v" ++ string_of_nat j) ++ " = " ++ ctext e)).
    apply (lexes_op "."); [reflexivity|]. apply lexes_sep; [apply sep_assign|apply word_name, vname|exact L].
Qed.

(** ** the generated instructions *)
Section Made.
  Variables (fns : list (string * expr)) (d : dtype).
  Hypothesis in_select : forall sel body, select_fn fns = Ok sel -> decl_body sel = Ok body -> plain body = true.
  Definition all_shaped (l : list instr) : Prop := Forall shaped l.
  Definition stored (s : gst) : Prop := forall k o, In (k, o) (snd s) -> all_shaped (fst o) /\ shaped (snd o).
  Definition plain_vars (vars : list (string * expr)) : Prop := forall x a, dget vars x = Some a -> plain a = true.

  Lemma shaped_let n t e : formed e -> shaped (let_ n t e).
  Proof. intros F. split; [apply fresh_name|exact F]. Qed.
  Lemma shaped_conv x a b : py_name x = true -> formed (conv_rhs x a b).
  Proof.
    intros X. constructor. unfold conv_rhs. destruct (bt_eqb a INT128 && bt_eqb b INT64); [constructor; exact X|]. destruct (is_primitive a); [constructor; right; exact X|].
    constructor; [destruct a, b; reflexivity|]. constructor; [constructor; right; exact X|]. constructor; [|constructor]. constructor. destruct a, b; (left; reflexivity) || (right; reflexivity).
  Qed.
  Lemma stored_at s n : stored s -> stored (at_ s n).
  Proof. exact (fun H => H). Qed.
  Lemma all_snoc l j : all_shaped l -> shaped j -> all_shaped (l ++ [j]).
  Proof. intros A B. apply Forall_app. split; [exact A|constructor; [exact B|constructor]]. Qed.
  Lemma emit_as_shaped s loc e t f s' loc' i : emit_as s loc e t f = Ok (s', loc', i) -> stored s -> all_shaped loc -> formed e -> stored s' /\ all_shaped loc' /\ shaped i.
  Proof.
    intros E S0 L F. apply emit_as_inv in E. cbv zeta in E. destruct E as [(-> & -> & -> & _)|(u & _ & -> & -> & ->)].
    - split; [exact S0|]. split; [apply all_snoc; [exact L|]|]; apply shaped_let, F.
    - assert (C : shaped (let_ (S (fst s)) u (conv_rhs (fresh (fst s)) t u))) by apply shaped_let, shaped_conv, fresh_name. split; [exact S0|]. split; [|exact C].
      change [?a; ?b] with ([a] ++ [b]). rewrite app_assoc. apply all_snoc; [apply all_snoc; [exact L|apply shaped_let, F]|exact C].
  Qed.
  Lemma remember_shaped e s loc i s' loc' i' : remember e (s, loc, i) = Ok (s', (loc', i')) -> stored s -> all_shaped loc -> shaped i -> stored s' /\ all_shaped loc' /\ shaped i'.
  Proof.
    intros E S0 L F. destruct (i_type i) as [t|] eqn:T; [|unfold remember, type_of_instr in E; rewrite T in E; discriminate].
    destruct (remember_inv _ _ _ _ _ _ _ _ E T) as [(C & ->)|(_ & -> & -> & ->)].
    - split; [exact S0|]. assert (H : exists k, In (k, (loc', i')) (snd s)).
      { clear -C. induction (snd s) as [|((e' & t') & o) c IH]; cbn in C; [discriminate|]. destruct (expr_eqb e e' && bt_eqb t t').
        - injection C as ->. exists (e', t'). cbn. auto.
        - destruct (IH C) as (k & H). exists k. cbn. auto. }
      destruct H as (k & H). exact (S0 k _ H).
    - split; [|auto]. intros k o H. apply in_app_or in H as [H|[[= <- <-]|[]]]; [eauto|auto].
  Qed.
  Lemma formed_app f l : py_name f = true -> Forall (fun x => py_name x = true) l -> formed (CApp f (map CId l)).
  Proof. intros F L. constructor. constructor; [exact F|]. apply Forall_map. induction L; constructor; auto. constructor. right. assumption. Qed.
  Lemma div_shaped l1 i1 l2 i2 ov s s' loc i : div_tail ov (l1, i1) (l2, i2) s = Ok (s', (loc, i)) -> stored s ->
    all_shaped l1 -> shaped i1 -> all_shaped l2 -> shaped i2 -> stored s' /\ all_shaped loc /\ shaped i.
  Proof.
    intros E S0 A1 B1 A2 B2. apply div_tail_inv in E as (x1 & x2 & X1 & X2 & E). cbv zeta in E. pose proof (shaped_dest _ _ B1 X1) as N1. pose proof (shaped_dest _ _ B2 X2) as N2.
    assert (A12 : all_shaped (l1 ++ l2)) by (apply Forall_app; auto).
    assert (J : shaped (let_ (fst s) FLOAT64 (recip (CId x2)))). { apply shaped_let, (formed_app _ [x2]); [reflexivity|]. repeat constructor. exact N2. }
    destruct E as [(_ & _ & E)|(_ & m & M & -> & -> & ->)].
    - apply (emit_as_shaped _ _ _ _ _ _ _ _ E); [exact S0|apply all_snoc; assumption|]. apply (formed_app _ [x1; fresh (fst s)]); [reflexivity|]. constructor; [exact N1|]. constructor; [apply fresh_name|constructor].
    - assert (C : shaped (let_ (m + 5) UCHAR256 (conv_rhs (fresh m) FLOAT256 UCHAR256))) by apply shaped_let, shaped_conv, fresh_name.
      split; [exact S0|]. split; [|exact C]. apply Forall_app. split; [exact A12|]. apply Forall_app. split; [destruct (is64 i2); [constructor; [exact J|constructor]|constructor]|].
      assert (Sd : forall k, shaped (set_ m k (fmul (if is64 i1 then CId x1 else CField (CId x1) k) (if is64 i2 then CId (fresh (fst s)) else recip (CField (CId x2) k))))).
      { intros k. split; [apply fresh_name|]. constructor; [reflexivity|]. constructor; [|constructor; [|constructor]].
        - destruct (is64 i1); constructor; [right|]; exact N1.
        - destruct (is64 i2); constructor; [right; apply fresh_name|reflexivity|]. constructor; [constructor; exact N2|constructor]. }
      unfold quads. constructor; [apply fresh_name|]. repeat (constructor; [apply Sd|]). constructor; [exact C|constructor].
  Qed.

  Lemma plain_child k t args a : k <> KVar -> k <> KNonTerm -> k <> KLit -> plain (Node k t args) = true -> In a args -> plain a = true.
  Proof.
    intros N1 N2 N3 P H. assert (Q : forallb plain args = true) by (destruct k; try congruence; exact P). rewrite forallb_forall in Q. apply Q, H.
  Qed.
  Lemma plain_var k t x rest : is_var k -> plain (Node k t (Atom (PStr x) :: rest)) = true -> py_name x = true.
  Proof. intros [-> | ->] H; exact H. Qed.
  Lemma plain_dset x ma y mb : plain ma = true -> plain mb = true -> plain_vars (dset (dset [] x ma) y mb).
  Proof.
    intros A B z a E. rewrite !dget_dset in E. destruct (String.eqb z y); [injection E as <-; exact B|]. destruct (String.eqb z x); [injection E as <-; exact A|discriminate].
  Qed.
  Lemma arith_name f def g ret : arith_instr d f def = (g, ret) -> py_name g = true.
  Proof. unfold arith_instr. destruct (smem f (variants "add")); [|destruct (smem f (variants "sub"))]; intros [= <- _]; destruct d; reflexivity. Qed.
  Lemma gen_shaped e ov vars s s' loc i : gen fns d e ov vars s s' loc i -> plain e = true -> plain_vars vars -> stored s -> stored s' /\ all_shaped loc /\ shaped i.
  Proof.
    induction 1 as
      [k t x rest a ov vars s s' loc i K D G IH
      |k t x rest def ov vars s r s' loc i K D B T E R
      |k t x rest def ov vars s r s' loc i K D B T E R
      |t c a b ov vars s s' loc i G IH
      |t a rest def ov vars s r s' loc i B E R
      |k op t a b rest def ov vars s s1 l1 i1 s2 l2 i2 t1 t2 x1 x2 s' loc i Op B G1 IH1 G2 IH2 T1 T2 P1 P2 X1 X2 E
      |k t a b rest pre a' b' ov vars s s1 l1 i1 s2 l2 i2 s' loc i Op G1 IH1 G2 IH2 Pr G IH
      |k t f ma mb rest def sel t' kc tc c0 c1 cs a b p q ps x y op ov vars s s0 l0 i0 s1 l1 i1 s2 l2 i2 s3 l3 i3 x0 x1 x2 x3 s' loc i K F B Se Bo Pa Nx Ny Sn G0 IH0 G1 IH1 G2 IH2 G3 IH3 X0 X1 X2 X3 E
      |k t a rest ov vars s s1 l1 i1 x s' loc i K G IH X E
      |k t f a rest ov vars s s' loc i K F G IH
      |k t f a b rest ov vars s s1 l1 i1 s2 l2 i2 s' loc i K F G1 IH1 G2 IH2 E
      |k t f a b rest def ov vars s s1 l1 i1 s2 l2 i2 x1 x2 g ret s' loc i K F B G1 IH1 G2 IH2 X1 X2 A E]; intros Ce Cv L.
    - apply IH; auto. exact (Cv x a D).
    - pose proof (plain_var _ _ _ _ K Ce) as Sx. destruct r as ((s1 & l1) & i1).
      destruct (emit_as_shaped _ _ _ _ _ _ _ _ E L (Forall_nil _)) as (A1 & A2 & A3); [|eapply remember_shaped; eauto].
      apply (formed_app _ ["inputCoord"; x]); [destruct d; reflexivity|repeat constructor; exact Sx].
    - pose proof (plain_var _ _ _ _ K Ce) as Sx. apply emit_let in E as ->. assert (C : shaped (let_ (fst s) (or_ ov def) (CId x))) by (apply shaped_let; constructor; constructor; right; exact Sx).
      eapply remember_shaped; [exact R|exact L|constructor; [exact C|constructor]|exact C].
    - apply IH; auto. eapply plain_child; [| | |exact Ce|]; try discriminate. cbn. auto.
    - apply emit_let in E as ->. assert (C : shaped (let_ (fst s) (or_ ov def) (CLit a))) by (apply shaped_let; destruct a; try discriminate Ce; constructor).
      eapply remember_shaped; [exact R|exact L|constructor; [exact C|constructor]|exact C].
    - assert (N : k <> KVar /\ k <> KNonTerm /\ k <> KLit) by (destruct k; (discriminate Op || (repeat split; discriminate))). destruct N as (N1 & N2 & N3).
      destruct (IH1 (plain_child _ _ _ a N1 N2 N3 Ce ltac:(cbn; auto)) Cv L) as (L1 & A1 & B1).
      destruct (IH2 (plain_child _ _ _ b N1 N2 N3 Ce ltac:(cbn; auto)) Cv L1) as (L2 & A2 & B2).
      apply (emit_as_shaped _ _ _ _ _ _ _ _ E L2); [apply Forall_app; auto|].
      constructor; [destruct k; try discriminate Op; injection Op as <-; discriminate|exact (shaped_dest _ _ B1 X1)|exact (shaped_dest _ _ B2 X2)].
    - assert (N : k <> KVar /\ k <> KNonTerm /\ k <> KLit) by (destruct k; try (destruct (Op eq_refl)); repeat split; discriminate). destruct N as (N1 & N2 & N3).
      assert (Ca : plain a = true) by (apply (plain_child _ _ _ a N1 N2 N3 Ce); cbn; auto). assert (Cb : plain b = true) by (apply (plain_child _ _ _ b N1 N2 N3 Ce); cbn; auto).
      destruct (IH1 Ca Cv L) as (L1 & _ & _). destruct (IH2 Cb Cv L1) as (L2 & _ & _). apply IH; auto.
      destruct Pr as [(_ & -> & ->)|[(_ & -> & ->)|(_ & -> & ->)]]; cbn; rewrite Ca, Cb; reflexivity.
    - assert (N : k <> KVar /\ k <> KNonTerm /\ k <> KLit) by (destruct K as [-> | ->]; repeat split; discriminate). destruct N as (N1 & N2 & N3).
      assert (Cva : plain_vars (dset (dset [] x ma) y mb)) by (apply plain_dset; (eapply plain_child; [| | |exact Ce|]); auto; cbn; auto).
      pose proof (in_select _ _ Se Bo) as Cs.
      assert (Cc : plain (Node kc tc (c0 :: c1 :: cs)) = true) by (eapply plain_child; [| | |exact Cs|]; try discriminate; cbn; auto).
      assert (Nc : kc <> KVar /\ kc <> KNonTerm /\ kc <> KLit) by (destruct kc; (discriminate Sn || (repeat split; discriminate))). destruct Nc as (Nc1 & Nc2 & Nc3).
      destruct IH0 as (L0 & A0 & B0); auto. { eapply plain_child; [| | |exact Cc|]; auto; cbn; auto. }
      destruct IH1 as (L1 & A1 & B1); auto. { eapply plain_child; [| | |exact Cc|]; auto; cbn; auto. }
      destruct IH2 as (L2 & A2 & B2); auto. { eapply plain_child; [| | |exact Cs|]; try discriminate; cbn; auto. }
      destruct IH3 as (L3 & A3 & B3); auto. { eapply plain_child; [| | |exact Cs|]; try discriminate; cbn; auto. }
      apply (emit_as_shaped _ _ _ _ _ _ _ _ E L3); [repeat (apply Forall_app; split); auto|]. apply (formed_app _ [x0; x1; x2; x3]); [destruct kc; try discriminate Sn; injection Sn as <-; destruct d; reflexivity|].
      constructor; [exact (shaped_dest _ _ B0 X0)|]. constructor; [exact (shaped_dest _ _ B1 X1)|]. constructor; [exact (shaped_dest _ _ B2 X2)|]. constructor; [exact (shaped_dest _ _ B3 X3)|constructor].
    - assert (N : k <> KVar /\ k <> KNonTerm /\ k <> KLit) by (destruct K as [-> | ->]; repeat split; discriminate). destruct N as (N1 & N2 & N3).
      destruct (IH (plain_child _ _ _ a N1 N2 N3 Ce ltac:(cbn; auto)) Cv L) as (L1 & A1 & B1). cbn in E. injection E as <- <- <-.
      assert (C : shaped (mkI (Some "sum") None (Some (sum_exp x)))).
      { split; [reflexivity|]. constructor. constructor; [reflexivity|]. constructor; [|constructor; [constructor; right; reflexivity|constructor]]. constructor; [reflexivity|]. constructor; [constructor; right; exact (shaped_dest _ _ B1 X)|constructor]. }
      split; [exact L1|]. split; [apply all_snoc; assumption|exact C].
    - assert (N : k <> KVar /\ k <> KNonTerm /\ k <> KLit) by (destruct K as [-> | ->]; repeat split; discriminate). destruct N as (N1 & N2 & N3).
      apply IH; auto. apply (plain_child _ _ _ a N1 N2 N3 Ce). cbn. auto.
    - assert (N : k <> KVar /\ k <> KNonTerm /\ k <> KLit) by (destruct K as [-> | ->]; repeat split; discriminate). destruct N as (N1 & N2 & N3).
      destruct (IH1 (plain_child _ _ _ a N1 N2 N3 Ce ltac:(cbn; auto)) Cv L) as (L1 & A1 & B1).
      destruct (IH2 (plain_child _ _ _ b N1 N2 N3 Ce ltac:(cbn; auto)) Cv L1) as (L2 & A2 & B2).
      destruct (swapped f); eapply div_shaped; eauto.
    - assert (N : k <> KVar /\ k <> KNonTerm /\ k <> KLit) by (destruct K as [-> | ->]; repeat split; discriminate). destruct N as (N1 & N2 & N3).
      destruct (IH1 (plain_child _ _ _ a N1 N2 N3 Ce ltac:(cbn; auto)) Cv L) as (L1 & A1 & B1).
      destruct (IH2 (plain_child _ _ _ b N1 N2 N3 Ce ltac:(cbn; auto)) Cv L1) as (L2 & A2 & B2).
      apply (emit_as_shaped _ _ _ _ _ _ _ _ E L2); [destruct (swapped f); apply Forall_app; auto|].
      pose proof (shaped_dest _ _ B1 X1). pose proof (shaped_dest _ _ B2 X2).
      destruct (swapped f); [apply (formed_app g [x2; x1])|apply (formed_app g [x1; x2])]; try exact (arith_name _ _ _ _ A); repeat constructor; assumption.
  Qed.
End Made.

Lemma lexes_statement ts s u : lexes u ts -> s = (u ++ ";")%string -> lex "" s = ts ++ [TOther].
Proof. intros L ->. apply (L ";"). reflexivity. Qed.
Lemma mapR_forall2 {A B} (f : A -> res B) (Q : B -> A -> Prop) l : Forall (fun a => exists b, f a = Ok b /\ Q b a) l -> exists bs, mapR f l = Ok bs /\ Forall2 Q bs l.
Proof.
  induction 1 as [|a l (b & E & H) _ (bs & E' & H')]; [exists []; split; [reflexivity|constructor]|].
  exists (b :: bs). cbn [mapR]. rewrite E. cbn [bindR]. rewrite E'. split; [reflexivity|constructor; assumption].
Qed.
