(** Gemmini kernels: the texts of expressions and their values. *)

From Coq Require Import String Ascii List ZArith Bool Lia.
From Verif Require Import Ast Dict Semantics SmtPrint SexpProofs SmtPrelude SmtProofs RktModel LibSem PyGram PyParse PyMean NpModel NpSem NpProofs NpProofs3 GmModel GmSem.
Import ListNotations.
Local Open Scope nat_scope.
Local Open Scope list_scope.
Local Open Scope string_scope.

Definition txt (s : string) (l : nat) (p : pexp) : Prop := exists ts, lexes s ts /\ at_level l ts p.

Lemma txt_lower s l m p : l <= m -> m <= 8 -> txt s m p -> txt s l p.
Proof. intros L M (ts & X & A). exists ts. split; [exact X|apply (at_lower l m); assumption]. Qed.
Lemma txt_written s l p : l <= 8 -> txt s l p -> written s p.
Proof.
  intros L T. apply (txt_lower s 0 l) in T; [|lia|exact L]. destruct T as (ts & X & A). destruct (A [] Logic.I) as (n & P). exists n.
  specialize (X "" eq_refl). replace (s ++ "") with s in X by (clear; induction s; cbn; congruence). rewrite X. exact P.
Qed.
Lemma written_fun s p q : written s p -> written s q -> p = q.
Proof. intros (n & P) (m & Q). apply (parses_fun GCond (lex "" s) p q [] []); [exists n; exact P|exists m; exact Q]. Qed.

Lemma txt_name x : py_name x = true -> txt x 8 (PName x).
Proof. intros N. exists [TName x]. split; [apply word_name, N|apply opened_level, opened_name]. Qed.
Lemma txt_num z : (0 <= z)%Z -> txt (string_of_Z z) 7 (PNum z).
Proof. intros N. exists [TNum z]. split; [apply word_num, N|apply level_num]. Qed.
Lemma txt_neg z : (z < 0)%Z -> txt (string_of_Z z) 7 (PNeg (PNum (- z))).
Proof. intros N. exists [Minus; TNum (- z)]. split; [apply word_neg, N|apply level_neg]. Qed.
(** a sum, to which more can be added *)
Definition sumtxt (s : string) (p : pexp) : Prop := exists ts, lexes s ts /\ sum_open ts p.
Lemma sumtxt_term s p : txt s 6 p -> sumtxt s p.
Proof. intros (ts & X & A). exists ts. split; [exact X|apply open_of_term, A]. Qed.
Lemma sumtxt_txt s p : sumtxt s p -> txt s 5 p.
Proof. intros (ts & X & A). exists ts. split; [exact X|apply sum_level, A]. Qed.
Lemma txt_sum op tk o a p b q : sep_tok op tk -> sum_of tk = Some o -> sumtxt a p -> txt b 6 q -> sumtxt (a ++ op ++ b) (PBin o p q).
Proof.
  intros S0 T (ta & X & A) (tb & Y & B). exists (ta ++ tk :: tb)%list. split; [apply lexes_sep; assumption|apply sum_open_bin; assumption].
Qed.
Lemma txt_term op tk o a p b q : sep_tok op tk -> term_of tk = Some o -> txt a 7 p -> txt b 7 q -> txt (a ++ op ++ b) 6 (PBin o p q).
Proof.
  intros S0 T (ta & X & A) (tb & Y & B). exists (ta ++ tk :: tb)%list. split; [apply lexes_sep; assumption|apply level_term; assumption].
Qed.
Lemma txt_paren s l p : l <= 8 -> txt s l p -> txt ("(" ++ s ++ ")") 8 p.
Proof.
  intros L T. apply (txt_lower s 0 l) in T; [|lia|exact L]. destruct T as (ts & X & A). exists (LP :: ts ++ [RP])%list. split; [apply lexes_paren, X|apply level_paren; [lia|exact A]].
Qed.
Lemma sep_plus : sep_tok " + " Plus. Proof. sept. Qed.
Lemma sep_minus : sep_tok " - " Minus. Proof. sept. Qed.
Lemma sep_star : sep_tok " * " Star. Proof. sept. Qed.

(** [x[i][j]] *)
Definition cell (x i j : string) : pexp := PIndex (PIndex (PName x) (PName i)) (PName j).
Lemma txt_cell x s ti tj i j : py_name x = true -> (forall u, lex "" (s ++ u) = ((LB :: ti ++ [RB]) ++ (LB :: tj ++ [RB]) ++ lex "" u)%list) -> brk s = true -> s <> "" -> at_level 0 ti i -> at_level 0 tj j ->
  txt (x ++ s) 8 (PIndex (PIndex (PName x) i) j).
Proof.
  intros N L B Ne I0 J0. exists (([TName x] ++ LB :: ti ++ [RB]) ++ LB :: tj ++ [RB])%list. split.
  - rewrite <- app_assoc. apply lexes_cat; [apply word_name, N| |exact B|exact Ne]. intros rest _. rewrite L, <- app_assoc. reflexivity.
  - apply opened_level. apply opened_index; [|exact J0]. apply opened_index; [apply opened_name|exact I0].
Qed.
Lemma txt_i0 x : py_name x = true -> txt (x ++ "[i][0]") 8 (PIndex (PIndex (PName x) (PName "i")) (PNum 0)).
Proof.
  intros N. apply (txt_cell x "[i][0]" [TName "i"] [TNum 0]); try exact N; try reflexivity; try discriminate.
  - intros [|? ?]; reflexivity.
  - apply (at_lower 0 8); [lia|lia|apply opened_level, opened_name].
  - apply (at_lower 0 7); [lia|lia|apply level_num].
Qed.
Lemma txt_ij x : py_name x = true -> txt (x ++ "[i][j]") 8 (PIndex (PIndex (PName x) (PName "i")) (PName "j")).
Proof.
  intros N. apply (txt_cell x "[i][j]" [TName "i"] [TName "j"]); try exact N; try reflexivity; try discriminate.
  - intros [|? ?]; reflexivity.
  - apply (at_lower 0 8); [lia|lia|apply opened_level, opened_name].
  - apply (at_lower 0 8); [lia|lia|apply opened_level, opened_name].
Qed.
Lemma txt_len : txt "LEN" 8 (PName "LEN").
Proof. apply txt_name. reflexivity. Qed.

Section Numbers.
  Variables (fns : list (string * expr)) (d : dtype) (len : nat) (params : list (string * ty)) (r : env).
  Hypothesis Names : forall x t, In (x, t) params -> free_name x.

  Definition numvars (st : state) : Prop := forall x z, In (x, TInt) params -> r x = Some (VInt z) -> st x = Some (Num z).
  Lemma numvars_at st x i : In x ["i"; "j"] -> numvars st -> numvars (at_ st x i).
  Proof.
    intros X N y z P E. unfold at_, put. destruct (Names y TInt P) as (_ & F & _). cbn in X, F.
    destruct (String.eqb_spec x y) as [<-|Ne]; [exfalso; intuition|apply N; assumption].
  Qed.

  (** an expression whose translation is a text *)
  Definition gives (e : expr) (s : string) (t : ty) : Prop := exists m0, forall m, m0 <= m -> forall cur g, helper fns d m e cur g = Ok (g, PcExp s, Some t).

  Lemma gives_bin k op a sa b sb : gm_op k = Some op -> k <> KDiv -> gives a sa TInt -> gives b sb TInt ->
    gives (Node k TInt [a; b]) ("(" ++ sa ++ ")" ++ op ++ "(" ++ sb ++ ")") TInt.
  Proof.
    intros K D (ma & A) (mb & B). exists (S (ma + mb)). intros [|m] L cur g; [lia|].
    assert (La : ma <= m) by lia. assert (Lb : mb <= m) by lia.
    destruct k; try discriminate K; try (contradiction D; reflexivity).
    all: cbn [helper helper_step operands]; rewrite (A m La); cbn [bindR fst snd]; rewrite (B m Lb); cbn; injection K as <-; reflexivity.
  Qed.
  Lemma gives_var x t : gives (Node KVar t [Atom (PStr x)]) x t.
  Proof. exists 2. intros [|[|m]] L cur g; try lia. destruct g. reflexivity. Qed.
  Lemma gives_lit t a : gives (Node KLit t [Atom a]) (str_atom a) t.
  Proof. exists 2. intros [|[|m]] L cur g; try lia. destruct g. reflexivity. Qed.

  Lemma int32_ok z : (-2147483648 <= z <= 2147483647)%Z -> int32 z = Some z.
  Proof. intros H. unfold int32. replace (Z.leb (-2147483648) z) with true by (symmetry; apply Z.leb_le; lia). replace (Z.leb z 2147483647) with true by (symmetry; apply Z.leb_le; lia). reflexivity. Qed.

  Lemma number_text tight e z : number params r tight e z -> short z /\ exists s p,
    gives e s TInt /\ (if tight then txt s 6 p else sumtxt s p) /\ forall st, numvars st -> ceval len st p = Some z.
  Proof.
    unfold short.
    assert (Par : forall (t : bool) s p, (if t then txt s 6 p else sumtxt s p) -> txt ("(" ++ s ++ ")") 8 p).
    { intros [] s p T; [exact (txt_paren s 6 p ltac:(lia) T)|exact (txt_paren s 5 p ltac:(lia) (sumtxt_txt _ _ T))]. }
    induction 1 as [z Hz|x z P R Hz|ta tb a b x y A IHa B IHb Hz|ta tb a b x y A IHa B IHb Hz|ta tb a b x y A IHa B IHb Hz].
    - split; [exact Hz|]. unfold short in Hz. destruct (Z_lt_le_dec z 0) as [L|L].
      + exists (string_of_Z z), (PNeg (PNum (- z))). split; [apply (gives_lit TInt (PInt z))|]. split; [apply (txt_lower _ 6 7); [lia|lia|apply txt_neg, L]|].
        intros st _. cbn. rewrite int32_ok by lia. rewrite Z.opp_involutive. apply int32_ok. lia.
      + exists (string_of_Z z), (PNum z). split; [apply (gives_lit TInt (PInt z))|]. split; [apply (txt_lower _ 6 7); [lia|lia|apply txt_num, L]|].
        intros st _. cbn. apply int32_ok. lia.
    - split; [lia|]. exists x, (PName x). split; [apply gives_var|]. destruct (Names x TInt P) as (N & F & _). split; [apply (txt_lower _ 6 8); [lia|lia|apply txt_name, N]|].
      intros st V. cbn. rewrite (V x z P R). destruct (String.eqb_spec x "LEN") as [->|]; [exfalso; apply F; cbn; auto|reflexivity].
    - unfold short in Hz. split; [exact Hz|]. destruct IHa as (_ & sa & pa & Ga & Ta & Va), IHb as (_ & sb & pb & Gb & Tb & Vb).
      exists ("(" ++ sa ++ ")" ++ " + " ++ "(" ++ sb ++ ")"), (PBin OAdd pa pb). split; [apply gives_bin; [reflexivity|discriminate|exact Ga|exact Gb]|].
      split; [|intros st V; cbn; rewrite (Va st V), (Vb st V); apply int32_ok; lia].
      change (sumtxt (("(" ++ sa ++ ")" ++ " + " ++ "(" ++ sb ++ ")")) (PBin OAdd pa pb)). replace ("(" ++ sa ++ ")" ++ " + " ++ "(" ++ sb ++ ")") with (("(" ++ sa ++ ")") ++ " + " ++ ("(" ++ sb ++ ")")) by (rewrite !app_s; reflexivity).
      apply (txt_sum " + " Plus); [exact sep_plus|reflexivity| |].
      + apply sumtxt_term, (txt_lower _ 6 8); [lia|lia|exact (Par _ _ _ Ta)].
      + apply (txt_lower _ 6 8); [lia|lia|exact (Par _ _ _ Tb)].
    - unfold short in Hz. split; [exact Hz|]. destruct IHa as (_ & sa & pa & Ga & Ta & Va), IHb as (_ & sb & pb & Gb & Tb & Vb).
      exists ("(" ++ sa ++ ")" ++ " - " ++ "(" ++ sb ++ ")"), (PBin OSub pa pb). split; [apply gives_bin; [reflexivity|discriminate|exact Ga|exact Gb]|].
      split; [|intros st V; cbn; rewrite (Va st V), (Vb st V); apply int32_ok; lia].
      change (sumtxt (("(" ++ sa ++ ")" ++ " - " ++ "(" ++ sb ++ ")")) (PBin OSub pa pb)). replace ("(" ++ sa ++ ")" ++ " - " ++ "(" ++ sb ++ ")") with (("(" ++ sa ++ ")") ++ " - " ++ ("(" ++ sb ++ ")")) by (rewrite !app_s; reflexivity).
      apply (txt_sum " - " Minus); [exact sep_minus|reflexivity| |].
      + apply sumtxt_term, (txt_lower _ 6 8); [lia|lia|exact (Par _ _ _ Ta)].
      + apply (txt_lower _ 6 8); [lia|lia|exact (Par _ _ _ Tb)].
    - unfold short in Hz. split; [exact Hz|]. destruct IHa as (_ & sa & pa & Ga & Ta & Va), IHb as (_ & sb & pb & Gb & Tb & Vb).
      exists ("(" ++ sa ++ ")" ++ " * " ++ "(" ++ sb ++ ")"), (PBin OMul pa pb). split; [apply gives_bin; [reflexivity|discriminate|exact Ga|exact Gb]|].
      split; [|intros st V; cbn; rewrite (Va st V), (Vb st V); apply int32_ok; lia].
      change (txt (("(" ++ sa ++ ")" ++ " * " ++ "(" ++ sb ++ ")")) 6 (PBin OMul pa pb)). replace ("(" ++ sa ++ ")" ++ " * " ++ "(" ++ sb ++ ")") with (("(" ++ sa ++ ")") ++ " * " ++ ("(" ++ sb ++ ")")) by (rewrite !app_s; reflexivity).
      apply (txt_term " * " Star); [exact sep_star|reflexivity| |].
      + apply (txt_lower _ 7 8); [lia|lia|exact (Par _ _ _ Ta)].
      + apply (txt_lower _ 7 8); [lia|lia|exact (Par _ _ _ Tb)].
  Qed.
End Numbers.
