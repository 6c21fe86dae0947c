(** Proofs for C13: the text of an expression has its meaning. *)

From Coq Require Import String Ascii List ZArith Bool Lia DecimalString.
From Verif Require Import Ast Semantics Dict SexpModel SexpProofs SmtPrint SmtText SmtPrintProofs SmtMeaning RosProofs PyText PyGram PyShape PyParse.
Import ListNotations.
Local Open Scope string_scope.
Local Open Scope list_scope.

(** ** composing texts *)
Definition starts (s : string) : Prop := exists c r, s = String c r /\ Ascii.eqb c "*" = false.
Lemma starts_app s u : starts s -> starts (s ++ u).
Proof. intros [c [r [-> H]]]. exists c, (r ++ u)%string. auto. Qed.
Lemma brk_app u rest : brk u = true -> u <> "" -> brk (u ++ rest) = true.
Proof. destruct u; [congruence|auto]. Qed.
Lemma lexes_nil : lexes "" [].
Proof. intros rest _. reflexivity. Qed.
Lemma lexes_cat s ts u us : lexes s ts -> lexes u us -> brk u = true -> u <> "" -> lexes (s ++ u) (ts ++ us).
Proof. intros A B K N rest R. rewrite app_s, (A (u ++ rest)%string (brk_app u rest K N)), (B rest R), app_assoc. reflexivity. Qed.
Lemma lexes_op c u us : solo c = true -> lexes u us -> lexes (String c u) (op1 c :: us).
Proof. intros S0 B rest R. cbn [append]. rewrite (lex_solo c _ S0), (B rest R). reflexivity. Qed.
Lemma lexes_end c : solo c = true -> lexes (String c "") [op1 c].
Proof. intros S0. apply (lexes_op c "" [] S0 lexes_nil). Qed.
Lemma lexes_pre p tk u us : (forall s, lex "" (p ++ s) = tk :: lex "" s) -> lexes u us -> lexes (p ++ u) (tk :: us).
Proof. intros P B rest R. rewrite app_s, P, (B rest R). reflexivity. Qed.
Lemma lexes_star u us : starts u -> lexes u us -> lexes (String "*" u) (Star :: us).
Proof.
  intros [c [r [-> N]]] B rest R. cbn [append lex]. change (word_char "*") with false. change (Ascii.eqb "*" " ") with false. cbv iota. cbn [flush app].
  assert (X : op2 "*" c = None) by (unfold op2; cbn [dget String.eqb]; change (Ascii.eqb "*" "/") with false; change (Ascii.eqb "*" "=") with false;
    change (Ascii.eqb "*" "<") with false; change (Ascii.eqb "*" ">") with false; change (Ascii.eqb "*" "-") with false; change (Ascii.eqb "*" "!") with false;
    change (Ascii.eqb "*" "*") with true; rewrite N; reflexivity).
  rewrite X. f_equal. exact (B rest R).
Qed.
(** a separator that starts with a blank or a comma and ends with a blank *)
Definition sep_tok (sep : string) (tk : tok) : Prop := (forall s, lex "" (sep ++ s) = tk :: lex "" s) /\ brk sep = true /\ sep <> "".
Lemma lexes_sep a ts b us sep tk : sep_tok sep tk -> lexes a ts -> lexes b us -> lexes (a ++ sep ++ b) (ts ++ tk :: us).
Proof.
  intros [P [K N]] A B. apply (lexes_cat a ts (sep ++ b) (tk :: us) A); [apply lexes_pre; assumption|apply brk_app; assumption|].
  destruct sep; [congruence|discriminate].
Qed.
Lemma lexes_join sep tk ss tss : sep_tok sep tk -> Forall2 lexes ss tss -> lexes (join sep ss) (tjoin tk tss).
Proof.
  intros H. induction 1 as [|s ts ss tss A F IH]; [apply lexes_nil|]. cbn [join]. destruct ss as [|s2 ss].
  - inversion F; subst. exact A.
  - inversion F; subst. change (tjoin tk (ts :: y :: l')) with (ts ++ tk :: tjoin tk (y :: l')). apply lexes_sep; assumption.
Qed.
Ltac sept := split; [intros; reflexivity|split; [reflexivity|discriminate]].
Lemma sep_comma : sep_tok ", " Comma. Proof. sept. Qed.

(** ** words *)
Lemma digit_word c : is_digit c = true -> word_char c = true.
Proof. intros H. destruct c as [[] [] [] [] [] [] [] []]; vm_compute in H |- *; congruence. Qed.
Lemma word_num z : (0 <= z)%Z -> lexes (string_of_Z z) [TNum z] /\ starts (string_of_Z z).
Proof.
  intros P. pose proof (numeral_Z z P) as N.
  assert (D : forall s, NilEmpty.uint_of_string s <> None -> sall is_digit s = true).
  { clear. induction s as [|c s IH]; [reflexivity|]. cbn [NilEmpty.uint_of_string sall]. intros H.
    destruct (NilEmpty.uint_of_string s) eqn:E.
    - rewrite IH by discriminate. rewrite andb_true_r. destruct c as [[] [] [] [] [] [] [] []]; try reflexivity; cbn in H; congruence.
    - exfalso. apply H. destruct c as [[] [] [] [] [] [] [] []]; reflexivity. }
  remember (string_of_Z z) as w. destruct w as [|c w]; [discriminate N|].
  assert (Dg : sall is_digit (String c w) = true).
  { apply D. unfold numeral in N. destruct (NilEmpty.uint_of_string (String c w)); [discriminate|]. discriminate N. }
  assert (W : sall word_char (String c w) = true).
  { clear - Dg. revert Dg. generalize (String c w). induction s as [|d s IH]; [reflexivity|]. cbn. intros H. apply andb_true_iff in H. destruct H as [A B].
    rewrite (digit_word _ A), (IH B). reflexivity. }
  split.
  - assert (X : word_tok (String c w) = TNum z); [|rewrite <- X; apply lexes_word; [exact W|discriminate]].
    cbn [sall] in Dg. apply andb_true_iff in Dg. destruct Dg as [Dc _]. unfold word_tok, py_name. rewrite N.
    assert (K : keyword (String c w) = None /\ letter c = false).
    { unfold keyword. cbn [dget String.eqb]. destruct c as [[] [] [] [] [] [] [] []]; vm_compute in Dc; try discriminate Dc; split; reflexivity. }
    destruct K as [K1 K2]. rewrite K1, K2. reflexivity.
  - exists c, w. split; [reflexivity|]. cbn [sall] in Dg. apply andb_true_iff in Dg. destruct Dg as [Dc _].
    destruct c as [[] [] [] [] [] [] [] []]; vm_compute in Dc; try discriminate Dc; reflexivity.
Qed.
Lemma word_neg z : (z < 0)%Z -> lexes (string_of_Z z) [Minus; TNum (- z)] /\ starts (string_of_Z z).
Proof.
  intros N. destruct z as [|p|p]; try lia. destruct (word_num (Z.pos p)) as [A B]; [lia|].
  assert (E : string_of_Z (Z.neg p) = String "-" (string_of_Z (Z.pos p))) by reflexivity. rewrite E. split; [|eexists; eexists; split; reflexivity].
  intros rest R. cbn [append lex]. change (word_char "-") with false. change (Ascii.eqb "-" " ") with false. cbv iota. cbn [flush app].
  specialize (A rest R). remember (string_of_Z (Z.pos p)) as s. destruct B as [c [r [-> Hc]]]. cbn [append]. cbn [append] in A.
  assert (X : op2 "-" c = None).
  { unfold op2. cbn [dget String.eqb]. destruct (Ascii.eqb_spec c ">") as [-> |Hn].
    - exfalso. assert (D : numeral (String ">" r) = Some (Z.pos p)) by (rewrite Heqs; apply numeral_Z; lia). apply numeral_digit in D. discriminate D.
    - cbn. destruct (Ascii.eqb_spec c ">"); [congruence|reflexivity]. }
  rewrite X. change (op1 "-") with Minus. rewrite A. reflexivity.
Qed.
Lemma word_name x : py_name x = true -> lexes x [TName x] /\ starts x.
Proof.
  intros H. pose proof H as H0. unfold py_name in H. apply andb_true_iff in H. destruct H as [H K]. apply andb_true_iff in H. destruct H as [H _].
  destruct x as [|c r]; [discriminate H|]. apply andb_true_iff in H. destruct H as [Lc W]. split.
  - assert (X : word_tok (String c r) = TName (String c r)) by (unfold word_tok; destruct (keyword (String c r)); [discriminate K|]; rewrite H0; reflexivity).
    rewrite <- X. apply lexes_word; [|discriminate]. cbn [sall]. unfold word_char at 1. rewrite Lc. exact W.
  - exists c, r. split; [reflexivity|]. destruct (Ascii.eqb_spec c "*") as [-> |]; [discriminate Lc|reflexivity].
Qed.

(** ** operators with any number of operands *)
Section Monoid.
  Variables (A : Type) (inj : A -> val) (op : A -> A -> A) (e : A) (F : list val -> option val).
  Hypothesis inj_inj : forall x y, inj x = inj y -> x = y.
  Hypothesis assoc : forall x y z, op x (op y z) = op (op x y) z.
  Hypothesis unit_l : forall x, op e x = x.
  Hypothesis unit_r : forall x, op x e = x.
  Hypothesis H : forall vs v, F vs = Some v <-> exists zs, zs <> [] /\ vs = map inj zs /\ v = inj (fold_right op e zs).
  Lemma combine_vals ws v vss : F ws = Some v -> Forall2 (fun w vs => vs = [w] \/ F vs = Some w) ws vss -> F (concat vss) = Some v.
  Proof.
    intros E F2. apply H in E. destruct E as [zs [N [E1 E2]]]. apply H. subst ws v.
    cut (exists ys, (zs = [] \/ ys <> []) /\ concat vss = map inj ys /\ fold_right op e ys = fold_right op e zs).
    { intros [ys [B [C D]]]. exists ys. rewrite D. tauto. }
    clear N. remember (map inj zs) as ws. revert zs Heqws. induction F2 as [|w vs ws vss O F2 IH]; intros zs Ez.
    - destruct zs; [|discriminate Ez]. exists []. auto.
    - destruct zs as [|z zs]; [discriminate Ez|]. injection Ez as -> Ez. destruct (IH zs Ez) as [ys [B [C D]]].
      assert (X : exists us, us <> [] /\ vs = map inj us /\ fold_right op e us = z).
      { destruct O as [-> |O]; [exists [z]; split; [discriminate|]; split; [reflexivity|apply unit_r]|].
        apply H in O. destruct O as [us [O1 [O2 O3]]]. exists us. split; [exact O1|]. split; [exact O2|]. symmetry. apply inj_inj, O3. }
      destruct X as [us [U1 [U2 U3]]]. exists (us ++ ys). split; [right; destruct us; [congruence|discriminate]|]. split.
      + cbn [concat]. rewrite map_app. congruence.
      + cbn [fold_right]. rewrite <- D, <- U3. clear - assoc unit_l. induction us as [|u us IHu]; cbn; [rewrite unit_l; reflexivity|]. rewrite IHu. apply assoc.
  Qed.
End Monoid.
Lemma mapO_as_int vs zs : mapO as_int vs = Some zs <-> vs = map VInt zs.
Proof.
  revert zs. induction vs as [|v vs IH]; intros zs; cbn [mapO].
  - destruct zs; cbn; split; congruence.
  - destruct v; cbn [as_int]; try (split; [discriminate|destruct zs; discriminate]).
    destruct (mapO as_int vs) as [ys|] eqn:E.
    + specialize (IH ys). destruct IH as [IH _]. specialize (IH eq_refl). subst vs. split; [intros [= <-]; reflexivity|].
      destruct zs; cbn; [discriminate|]. intros [= -> Ey]. f_equal. f_equal. clear - Ey. revert zs Ey. induction ys; destruct zs; cbn; intros; try discriminate; [reflexivity|].
      injection Ey as -> Ey. f_equal. auto.
    + split; [discriminate|]. destruct zs as [|z0 zs]; cbn; [discriminate|]. intros [= -> Ez]. apply IH in Ez. discriminate Ez.
Qed.
Lemma mapO_as_bool vs zs : mapO as_bool vs = Some zs <-> vs = map VBool zs.
Proof.
  revert zs. induction vs as [|v vs IH]; intros zs; cbn [mapO].
  - destruct zs; cbn; split; congruence.
  - destruct v; cbn [as_bool]; try (split; [discriminate|destruct zs; discriminate]).
    destruct (mapO as_bool vs) as [ys|] eqn:E.
    + specialize (IH ys). destruct IH as [IH _]. specialize (IH eq_refl). subst vs. split; [intros [= <-]; reflexivity|].
      destruct zs; cbn; [discriminate|]. intros [= -> Ey]. f_equal. f_equal. clear - Ey. revert zs Ey. induction ys; destruct zs; cbn; intros; try discriminate; [reflexivity|].
      injection Ey as -> Ey. f_equal. auto.
    + split; [discriminate|]. destruct zs as [|z0 zs]; cbn; [discriminate|]. intros [= -> Ez]. apply IH in Ez. discriminate Ez.
Qed.
Lemma fold_add zs : forall z, fold_left Z.add zs z = (z + fold_right Z.add 0 zs)%Z.
Proof. induction zs as [|y zs IH]; intros z; cbn; [lia|]. rewrite IH. lia. Qed.
Lemma fold_mul zs : forall z, fold_left Z.mul zs z = (z * fold_right Z.mul 1 zs)%Z.
Proof. induction zs as [|y zs IH]; intros z; cbn; [lia|]. rewrite IH. lia. Qed.
Lemma forallb_fold bs : forallb (fun x => x) bs = fold_right andb true bs.
Proof. induction bs; cbn; congruence. Qed.
Lemma existsb_fold bs : existsb (fun x => x) bs = fold_right orb false bs.
Proof. induction bs; cbn; congruence. Qed.

Definition joins : list kind := [KAdd; KMul; KAnd; KOr].
Lemma add_char I vs v : op_val I KAdd vs = Some v <-> exists zs, zs <> [] /\ vs = map VInt zs /\ v = VInt (fold_right Z.add 0%Z zs).
Proof.
  cbn [op_val]. split.
  - destruct (mapO as_int vs) as [[|z zs]|] eqn:E; try discriminate. intros [= <-]. apply mapO_as_int in E. exists (z :: zs). split; [discriminate|].
    split; [exact E|]. rewrite fold_add. reflexivity.
  - intros [[|z zs] [N [-> ->]]]; [congruence|]. rewrite (proj2 (mapO_as_int _ (z :: zs)) eq_refl). rewrite fold_add. reflexivity.
Qed.
Lemma mul_char I vs v : op_val I KMul vs = Some v <-> exists zs, zs <> [] /\ vs = map VInt zs /\ v = VInt (fold_right Z.mul 1%Z zs).
Proof.
  cbn [op_val]. split.
  - destruct (mapO as_int vs) as [[|z zs]|] eqn:E; try discriminate. intros [= <-]. apply mapO_as_int in E. exists (z :: zs). split; [discriminate|].
    split; [exact E|]. rewrite fold_mul. reflexivity.
  - intros [[|z zs] [N [-> ->]]]; [congruence|]. rewrite (proj2 (mapO_as_int _ (z :: zs)) eq_refl). rewrite fold_mul. reflexivity.
Qed.
Lemma and_char I vs v : op_val I KAnd vs = Some v <-> exists zs, zs <> [] /\ vs = map VBool zs /\ v = VBool (fold_right andb true zs).
Proof.
  cbn [op_val]. split.
  - destruct (mapO as_bool vs) as [[|z zs]|] eqn:E; try discriminate. intros [= <-]. apply mapO_as_bool in E. exists (z :: zs). split; [discriminate|].
    split; [exact E|]. rewrite <- forallb_fold. reflexivity.
  - intros [[|z zs] [N [-> ->]]]; [congruence|]. rewrite (proj2 (mapO_as_bool _ (z :: zs)) eq_refl). rewrite forallb_fold. reflexivity.
Qed.
Lemma or_char I vs v : op_val I KOr vs = Some v <-> exists zs, zs <> [] /\ vs = map VBool zs /\ v = VBool (fold_right orb false zs).
Proof.
  cbn [op_val]. split.
  - destruct (mapO as_bool vs) as [[|z zs]|] eqn:E; try discriminate. intros [= <-]. apply mapO_as_bool in E. exists (z :: zs). split; [discriminate|].
    split; [exact E|]. rewrite <- existsb_fold. reflexivity.
  - intros [[|z zs] [N [-> ->]]]; [congruence|]. rewrite (proj2 (mapO_as_bool _ (z :: zs)) eq_refl). rewrite existsb_fold. reflexivity.
Qed.
Lemma combine_op I k ws v vss : In k joins -> op_val I k ws = Some v -> Forall2 (fun w vs => vs = [w] \/ op_val I k vs = Some w) ws vss ->
  op_val I k (concat vss) = Some v.
Proof.
  intros K. destruct K as [<-|[<-|[<-|[<-|[]]]]].
  - apply (combine_vals Z VInt Z.add 0%Z); [congruence|intros; lia|intros; lia|intros; lia|apply add_char].
  - apply (combine_vals Z VInt Z.mul 1%Z); [congruence|intros; lia|intros; lia|intros; lia|apply mul_char].
  - apply (combine_vals bool VBool andb true); [congruence|intros [] [] []; reflexivity|intros []; reflexivity|intros []; reflexivity|apply and_char].
  - apply (combine_vals bool VBool orb false); [congruence|intros [] [] []; reflexivity|intros []; reflexivity|intros []; reflexivity|apply or_char].
Qed.

(** the Python operator *)
Definition jlev (k : kind) : nat := match k with KAdd => 5 | KMul => 6 | KAnd => 2 | _ => 1 end.
Definition jtok (k : kind) : tok := match k with KAdd => Plus | KMul => Star | KAnd => KwAnd | _ => KwOr end.
Definition jmk (k : kind) (a b : pexp) : pexp := match k with KAdd => PBin OAdd a b | KMul => PBin OMul a b | KAnd => PAnd a b | _ => POr a b end.
Definition jsep (k : kind) : string := match k with KAdd => " + " | KMul => " * " | KAnd => " and " | _ => " or " end.
Lemma join_sep k : In k joins -> sep_tok (jsep k) (jtok k) /\ py_join k = Some (jsep k).
Proof. intros [<-|[<-|[<-|[<-|[]]]]]; (split; [sept|reflexivity]). Qed.

Lemma join_value I C r k p ps vs v : In k joins -> Forall2 (fun p w => value C r p = Some w) (p :: ps) vs -> vs = [v] \/ op_val I k vs = Some v ->
  value C r (fold_left (jmk k) ps p) = Some v.
Proof.
  intros K F O. destruct ps as [|q ps].
  - inversion F as [|? w ? ? E F']; subst. inversion F'; subst. cbn [fold_left]. rewrite E. destruct O as [[= ->]|O]; [reflexivity|].
    destruct K as [<-|[<-|[<-|[<-|[]]]]].
    + apply add_char in O. destruct O as [[|z [|]] [_ [[= ->] ->]]]. cbn. f_equal. f_equal. lia.
    + apply mul_char in O. destruct O as [[|z [|]] [_ [[= ->] ->]]]. cbn. f_equal. f_equal. lia.
    + apply and_char in O. destruct O as [[|z [|]] [_ [[= ->] ->]]]. cbn. rewrite andb_true_r. reflexivity.
    + apply or_char in O. destruct O as [[|z [|]] [_ [[= ->] ->]]]. cbn. rewrite orb_false_r. reflexivity.
  - assert (O' : op_val I k vs = Some v).
    { destruct O as [-> |O]; [|exact O]. inversion F as [|? w ? ? E F']; subst. inversion F'. }
    clear O. remember (q :: ps) as qs. clear Heqqs. inversion F as [|? w ? ws E F']; subst. clear F.
    destruct K as [<-|[<-|[<-|[<-|[]]]]].
    + apply add_char in O'. destruct O' as [[|z zs] [_ [[= -> Ez] ->]]]. revert p z E zs Ez. induction F' as [|q2 u qs us Eq F' IH]; intros p z E zs Ez.
      * destruct zs; [|discriminate Ez]. cbn. rewrite E. f_equal. f_equal. lia.
      * destruct zs as [|y zs]; [discriminate Ez|]. injection Ez as -> Ez. cbn [fold_left jmk]. rewrite (IH (PBin OAdd p q2) (z + y)%Z) with (zs := zs); [|cbn [value]; rewrite E, Eq; reflexivity|exact Ez].
        cbn [fold_right]. f_equal. f_equal. lia.
    + apply mul_char in O'. destruct O' as [[|z zs] [_ [[= -> Ez] ->]]]. revert p z E zs Ez. induction F' as [|q2 u qs us Eq F' IH]; intros p z E zs Ez.
      * destruct zs; [|discriminate Ez]. cbn. rewrite E. f_equal. f_equal. lia.
      * destruct zs as [|y zs]; [discriminate Ez|]. injection Ez as -> Ez. cbn [fold_left jmk]. rewrite (IH (PBin OMul p q2) (z * y)%Z) with (zs := zs); [|cbn [value]; rewrite E, Eq; reflexivity|exact Ez].
        cbn [fold_right]. f_equal. f_equal. lia.
    + apply and_char in O'. destruct O' as [[|z zs] [_ [[= -> Ez] ->]]]. revert p z E zs Ez. induction F' as [|q2 u qs us Eq F' IH]; intros p z E zs Ez.
      * destruct zs; [|discriminate Ez]. cbn. rewrite E, andb_true_r. reflexivity.
      * destruct zs as [|y zs]; [discriminate Ez|]. injection Ez as -> Ez. cbn [fold_left jmk]. rewrite (IH (PAnd p q2) (z && y)) with (zs := zs); [|cbn [value]; rewrite E; cbn [truth]; rewrite Eq; destruct z; reflexivity|exact Ez].
        cbn [fold_right]. rewrite andb_assoc. reflexivity.
    + apply or_char in O'. destruct O' as [[|z zs] [_ [[= -> Ez] ->]]]. revert p z E zs Ez. induction F' as [|q2 u qs us Eq F' IH]; intros p z E zs Ez.
      * destruct zs; [|discriminate Ez]. cbn. rewrite E, orb_false_r. reflexivity.
      * destruct zs as [|y zs]; [discriminate Ez|]. injection Ez as -> Ez. cbn [fold_left jmk]. rewrite (IH (POr p q2) (z || y)) with (zs := zs); [|cbn [value]; rewrite E; cbn [truth]; rewrite Eq; destruct z; reflexivity|exact Ez].
        cbn [fold_right]. rewrite orb_assoc. reflexivity.
Qed.
Lemma join_level k ts p its : In k joins -> Forall (fun x => at_level (S (jlev k)) (fst x) (snd x)) ((ts, p) :: its) ->
  at_level (jlev k) (tjoin (jtok k) (ts :: map fst its)) (fold_left (jmk k) (map snd its) p).
Proof.
  intros [<-|[<-|[<-|[<-|[]]]]] F; cbn [jlev jtok jmk] in *.
  - apply (chain_level GSumT 5 Plus (PBin OAdd)); try assumption; [exact sumT_nil|intros; eapply r_sumT; eauto; reflexivity|exact r_sum|reflexivity].
  - apply (chain_level GTermT 6 Star (PBin OMul)); try assumption; [exact termT_nil|intros; eapply r_termT; eauto; reflexivity|exact r_term|reflexivity].
  - apply (chain_level GAndT 2 KwAnd PAnd); try assumption; [exact andT_nil|intros; eapply r_andT; eauto|exact r_and|reflexivity].
  - apply (chain_level GOrT 1 KwOr POr); try assumption; [exact orT_nil|intros; eapply r_orT; eauto|exact r_or|reflexivity].
Qed.
Lemma tjoin_concat tk ll : Forall (fun l => l <> []) ll -> tjoin tk (concat ll) = tjoin tk (map (tjoin tk) ll).
Proof.
  assert (A : forall l m, l <> [] -> m <> [] -> tjoin tk (l ++ m) = tjoin tk l ++ tk :: tjoin tk m).
  { induction l as [|x l IH]; intros m N M; [congruence|]. destruct l as [|y l].
    - destruct m; [congruence|]. reflexivity.
    - cbn [app]. change (tjoin tk (x :: y :: l ++ m)) with (x ++ tk :: tjoin tk ((y :: l) ++ m)). rewrite IH by (discriminate || assumption).
      change (tjoin tk (x :: y :: l)) with (x ++ tk :: tjoin tk (y :: l)). rewrite <- app_assoc. reflexivity. }
  induction 1 as [|l ll N F IH]; [reflexivity|]. cbn [concat map]. destruct ll as [|m ll].
  - cbn. rewrite app_nil_r. reflexivity.
  - rewrite A; [|exact N|inversion F; subst; cbn; destruct m; [congruence|discriminate]]. rewrite IH. reflexivity.
Qed.

(** ** the invariant *)
Section Main.
Variable fn : string -> bool.
Hypothesis fn_len : fn "len" = true.
Definition env_ok (r : env) : Prop := forall x, fn x = true -> r x = None.
Definition means (e : expr) (p : pexp) : Prop := forall I C r v, python_like I C -> env_ok r -> eqs_ok I r e -> eval I r e = Some v -> value C r p = Some v.
Definition single (L : nat) (e : expr) (ts : list tok) : Prop := exists p, at_level L ts p /\ means e p.
Definition cmeans (k : kind) (e : expr) (ps : list pexp) : Prop := forall I C r v, python_like I C -> env_ok r -> eqs_ok I r e -> eval I r e = Some v ->
  exists vs, Forall2 (fun p w => value C r p = Some w) ps vs /\ (vs = [v] \/ op_val I k vs = Some v).
Definition chain (k : kind) (e : expr) (ts : list tok) : Prop := exists its : list (list tok * pexp),
  its <> [] /\ ts = tjoin (jtok k) (map fst its) /\ Forall (fun x => at_level (S (jlev k)) (fst x) (snd x)) its /\ cmeans k e (map snd its).
(** a primary, possibly followed by a call or a subscript *)
Definition prim (p : pexp) (ts : list tok) : Prop := forall ts1 q rest, parses (GPrimT p) ts1 q rest -> parses GPrim (ts ++ ts1) q rest.
Definition good (e : expr) : Prop := exists s ts, to_python e = Ok s /\ starts s /\ lexes s ts /\ single (level e) e ts /\
  (forall k, In k joins -> jlev k <= level e -> chain k e ts) /\ (level e = 8 -> exists p, prim p ts /\ means e p).

Lemma level_le e : level e <= 8.
Proof. destruct e as [a|k t l]; [cbn; lia|]. destruct k; cbn; try lia. destruct l as [|[[]|] []]; try lia. destruct (z <? 0)%Z; lia. Qed.
Lemma single_chain k e ts L : single L e ts -> jlev k < L -> L <= 8 -> chain k e ts.
Proof.
  intros [p [A M]] J L8. exists [(ts, p)]. split; [discriminate|]. split; [reflexivity|]. split.
  - constructor; [|constructor]. apply (at_lower _ L); auto.
  - intros I C r v PL EO Q E. exists [v]. split; [|left; reflexivity]. constructor; [|constructor]. apply (M I C r v); auto.
Qed.
Lemma chain_single k e ts : In k joins -> chain k e ts -> single (jlev k) e ts.
Proof.
  intros K [its [N [-> [F M]]]]. destruct its as [|[ts p] its]; [congruence|]. exists (fold_left (jmk k) (map snd its) p). split.
  - apply (join_level k ts p its K F).
  - intros I C r v PL EO Q E. destruct (M I C r v PL EO Q E) as [vs [F2 O]]. exact (join_value I C r k p (map snd its) vs v K F2 O).
Qed.
Lemma mk_good e s ts : to_python e = Ok s -> starts s -> lexes s ts -> single (level e) e ts -> (forall k, In k joins -> jlev k <> level e) ->
  (level e = 8 -> exists p, prim p ts /\ means e p) -> good e.
Proof.
  intros P S0 L Sg N Pr. exists s, ts. repeat (split; [assumption|]). split; [|exact Pr].
  intros k K J. apply (single_chain k e ts (level e) Sg); [|apply level_le]. specialize (N k K). lia.
Qed.
Lemma good_at L e : good e -> L <= level e -> exists s ts, to_python e = Ok s /\ starts s /\ lexes s ts /\ single L e ts.
Proof.
  intros [s [ts [P [S0 [Lx [[p [A M]] _]]]]]] J. exists s, ts. repeat (split; [assumption|]). exists p. split; [|exact M].
  apply (at_lower L (level e)); [exact J|apply level_le|exact A].
Qed.
Lemma eqs_args I r k t args : eqs_ok I r (Node k t args) -> Forall (eqs_ok I r) args.
Proof. cbn [eqs_ok]. intros [H _]. induction args; constructor; tauto. Qed.

(** a list of arguments *)
Lemma good_args args : Forall good args -> exists ss its, mapR to_python args = Ok ss /\ Forall starts ss /\ Forall2 lexes ss (map fst its) /\
  Forall (fun x => at_level 0 (fst x) (snd x)) its /\ Forall2 means args (map snd its) /\ List.length its = List.length args.
Proof.
  induction 1 as [|a args G F IH]; [exists [], []; repeat split; constructor|].
  destruct IH as [ss [its [M [S0 [L [A [Mn N]]]]]]]. destruct (good_at 0 a G (Nat.le_0_l _)) as [s [ts [P [S1 [L1 [p [A1 M1]]]]]]].
  exists (s :: ss), ((ts, p) :: its). cbn [mapR]. rewrite P. cbn [bindR]. rewrite M. cbn [bindR map fst snd List.length].
  repeat split; try (constructor; assumption). congruence.
Qed.
Lemma vals_args I C r args ps vs : python_like I C -> env_ok r -> Forall (eqs_ok I r) args -> Forall2 means args ps -> mapO (eval I r) args = Some vs ->
  mapO (value C r) ps = Some vs.
Proof.
  intros PL EO Q M. revert Q vs. induction M as [|a p args ps Ma M IH]; intros Q vs E; [exact E|]. inversion Q; subst. cbn [mapO] in *.
  destruct (eval I r a) as [v|] eqn:Ev; [|discriminate E]. destruct (mapO (eval I r) args) as [ws|] eqn:Ew; [|discriminate E].
  rewrite (Ma I C r v PL EO); auto. rewrite (IH H2 ws eq_refl). exact E.
Qed.
Lemma vals_list I C r k args pss vs : python_like I C -> env_ok r -> Forall (eqs_ok I r) args -> Forall2 (cmeans k) args pss ->
  mapO (eval I r) args = Some vs -> exists vss, Forall2 (fun p w => value C r p = Some w) (concat pss) (concat vss) /\
    Forall2 (fun w us => us = [w] \/ op_val I k us = Some w) vs vss.
Proof.
  intros PL EO Q M. revert Q vs. induction M as [|a p args ps Ma M IH]; intros Q vs E.
  - injection E as <-. exists []. split; constructor.
  - inversion Q; subst. cbn [mapO] in E. destruct (eval I r a) as [v|] eqn:Ev; [|discriminate E]. destruct (mapO (eval I r) args) as [ws|] eqn:Ew; [|discriminate E].
    injection E as <-. destruct (IH H2 ws eq_refl) as [vss [A B]]. destruct (Ma I C r v PL EO H1 Ev) as [us [A1 B1]].
    exists (us :: vss). cbn [concat]. split; [apply Forall2_app; assumption|constructor; assumption].
Qed.
Lemma join_good k t args : In k joins -> args <> [] -> Forall (fun a => good a /\ jlev k <= level a) args -> good (Node k t args).
Proof.
  intros K N F.
  assert (X : exists ss itss, mapR to_python args = Ok ss /\ Forall starts ss /\ List.length ss = List.length args /\
    Forall2 lexes ss (map (tjoin (jtok k)) (map (map fst) itss)) /\ Forall (fun l : list (list tok * pexp) => l <> []) itss /\
    Forall (fun x => at_level (S (jlev k)) (fst x) (snd x)) (concat itss) /\ Forall2 (cmeans k) args (map (map snd) itss)).
  { clear N. induction F as [|a args [[s [ts [P [S0 [Lx [_ [Ch _]]]]]]] J] F IH]; [exists [], []; repeat split; constructor|].
    destruct IH as [ss [itss [E1 [E2 [E0 [E3 [E4 [E5 E6]]]]]]]]. destruct (Ch k K J) as [its [Ni [-> [Fi Mi]]]].
    exists (s :: ss), (its :: itss). cbn [mapR]. rewrite P. cbn [bindR]. rewrite E1. cbn [bindR map concat List.length].
    repeat split; try (constructor; assumption); [congruence|]. apply Forall_app. split; assumption. }
  destruct X as [ss [itss [E1 [E2 [E0 [E3 [E4 [E5 E6]]]]]]]].
  assert (Lv : level (Node k t args) = jlev k) by (destruct K as [<-|[<-|[<-|[<-|[]]]]]; reflexivity).
  assert (Ch : chain k (Node k t args) (tjoin (jtok k) (map (tjoin (jtok k)) (map (map fst) itss)))).
  { exists (concat itss). split.
    - destruct itss as [|its itss]; [inversion E6; subst; congruence|]. inversion E4; subst. cbn. destruct its; [congruence|discriminate].
    - split; [rewrite <- tjoin_concat; [rewrite concat_map; reflexivity|]|].
      { clear - E4. induction E4; constructor; [|assumption]. destruct x; [congruence|discriminate]. }
      split; [exact E5|]. intros I C r v PL EO Q E. apply eqs_args in Q.
      assert (E' : exists vs, mapO (eval I r) args = Some vs /\ op_val I k vs = Some v).
      { destruct K as [<-|[<-|[<-|[<-|[]]]]]; cbn [eval] in E; destruct (mapO (eval I r) args) as [vs|]; try discriminate E; exists vs; split; auto. }
      destruct E' as [vs [Ev Eo]]. destruct (vals_list I C r k args _ vs PL EO Q E6 Ev) as [vss [A B]].
      exists (concat vss). split; [rewrite concat_map; exact A|]. right. exact (combine_op I k vs v vss K Eo B). }
  destruct (join_sep k K) as [Sp Jn].
  exists (join (jsep k) ss), (tjoin (jtok k) (map (tjoin (jtok k)) (map (map fst) itss))). split.
  - cbn [to_python]. rewrite Jn, E1. reflexivity.
  - split.
    + destruct ss as [|s ss]; [destruct args; [congruence|discriminate E0]|]. inversion E2; subst. cbn [join]. destruct ss; [assumption|apply starts_app; assumption].
    + split; [apply lexes_join; assumption|]. rewrite Lv. split; [apply chain_single; assumption|].
      split; [|intros E; exfalso; destruct K as [<-|[<-|[<-|[<-|[]]]]]; discriminate E]. intros k2 K2 J. destruct (Nat.eq_dec (jlev k2) (jlev k)) as [Ej|Nj].
      * assert (k2 = k) by (destruct K as [<-|[<-|[<-|[<-|[]]]]], K2 as [<-|[<-|[<-|[<-|[]]]]]; cbn in Ej; congruence). subst k2. exact Ch.
      * apply (single_chain k2 _ _ (jlev k)); [apply chain_single; assumption|lia|]. destruct K as [<-|[<-|[<-|[<-|[]]]]]; cbn; lia.
Qed.

(** ** the other operators *)
Lemma prim_good e s ts p : to_python e = Ok s -> starts s -> lexes s ts -> level e = 8 -> prim p ts -> means e p -> good e.
Proof.
  intros P S0 L Lv A M. apply (mk_good e s ts P S0 L).
  - exists p. rewrite Lv. split; [|exact M]. intros rest St. apply A. apply primT_nil, St.
  - intros k K. rewrite Lv. destruct K as [<-|[<-|[<-|[<-|[]]]]]; cbn; lia.
  - intros _. exists p. split; assumption.
Qed.
Lemma atom_level ts p : (forall rest, parses GAtom (ts ++ rest) p rest) -> prim p ts.
Proof. intros A ts1 q rest P. apply (r_prim _ p ts1); [apply A|exact P]. Qed.
Lemma eval2 I r k t a b v : In k [KSub; KDiv; KMod; KEq; KLt; KLe; KGt; KGe] -> eval I r (Node k t [a; b]) = Some v ->
  exists x y, eval I r a = Some x /\ eval I r b = Some y /\ op_val I k [x; y] = Some v.
Proof.
  intros K E. assert (E' : match mapO (eval I r) [a; b] with Some vs => op_val I k vs | None => None end = Some v).
  { cbn [In] in K. destruct K as [<-|[<-|[<-|[<-|[<-|[<-|[<-|[<-|[]]]]]]]]]; exact E. }
  cbn [mapO] in E'. destruct (eval I r a) as [x|]; [|discriminate E']. destruct (eval I r b) as [y|]; [|discriminate E']. exists x, y. auto.
Qed.
Lemma eqs2 I r k t a b : eqs_ok I r (Node k t [a; b]) -> eqs_ok I r a /\ eqs_ok I r b.
Proof. intros H. apply eqs_args in H. inversion H as [|? ? A H']; subst. inversion H'; subst. auto. Qed.

(** the left operand of - and // *)
Definition jT (k : kind) : pexp -> goal := match k with KAdd => GSumT | _ => GTermT end.
Lemma chain_opens k e ts : k = KAdd \/ k = KMul -> chain k e ts ->
  exists p, means e p /\ forall ts1 q rest, stops (S (jlev k)) ts1 -> parses (jT k p) ts1 q rest -> parses (goal_of (jlev k)) (ts ++ ts1) q rest.
Proof.
  intros K [its [N [-> [F M]]]]. destruct its as [|[ts p] its]; [congruence|]. exists (fold_left (jmk k) (map snd its) p). split.
  - intros I C r v PL EO Q E. destruct (M I C r v PL EO Q E) as [vs [F2 O]]. apply (join_value I C r k p (map snd its) vs v); [|exact F2|exact O].
    unfold joins. destruct K; subst k; cbn; tauto.
  - intros ts1 q rest S0 P. destruct K; subst k; cbn [jlev jT jtok] in *.
    + apply (chain_open GSumT 5 Plus (PBin OAdd)) with (p := p); try assumption; [intros; eapply r_sumT; eauto; reflexivity|exact r_sum|reflexivity].
    + apply (chain_open GTermT 6 Star (PBin OMul)) with (p := p); try assumption; [intros; eapply r_termT; eauto; reflexivity|exact r_term|reflexivity].
Qed.

(** (a - b), (a // b), (a % b) *)
Lemma paren_good k t a b j tk o sep :
  py_join k = None -> py_paren k = Some sep -> In k [KSub; KDiv; KMod] -> sep_tok sep tk -> level (Node k t [a; b]) = 8 -> j = KAdd \/ j = KMul ->
  good a -> good b -> jlev j <= level a -> S (jlev j) <= level b -> binds tk = Some (jlev j) ->
  (forall a ts b ts1 c rest, parses (goal_of (S (jlev j))) ts b ts1 -> parses (jT j (PBin o a b)) ts1 c rest -> parses (jT j a) (tk :: ts) c rest) ->
  (forall I C x y v, python_like I C -> op_val I k [x; y] = Some v -> bin_val o x y = Some v) ->
  good (Node k t [a; b]).
Proof.
  intros J P K Sp Lv Kj Ga Gb La Lb B T2 V.
  destruct Ga as [s1 [t1 [P1 [S1 [X1 [_ [Ch _]]]]]]].
  destruct (chain_opens j a t1 Kj) as [p1 [M1 A1]]; [apply Ch; [unfold joins; destruct Kj; subst j; cbn; tauto|exact La]|].
  destruct (good_at (S (jlev j)) b Gb Lb) as [s2 [t2 [P2 [S2 [X2 [p2 [A2 M2]]]]]]].
  apply (prim_good _ ("(" ++ s1 ++ sep ++ s2 ++ ")") (LP :: (t1 ++ tk :: t2) ++ [RP]) (PBin o p1 p2)).
  - cbn [to_python]. rewrite J, P, P1. cbn [bindR]. rewrite P2. reflexivity.
  - eexists; eexists; split; reflexivity.
  - replace ("(" ++ s1 ++ sep ++ s2 ++ ")")%string with (String "(" ((s1 ++ sep ++ s2) ++ ")")) by (repeat (rewrite !app_s; cbn [String.append]); reflexivity).
    apply (lexes_op "(" _ _ eq_refl). apply lexes_cat; [apply lexes_sep; assumption|apply (lexes_end ")"); reflexivity|reflexivity|discriminate].
  - exact Lv.
  - apply atom_level. intros rest. cbn [app]. rewrite <- !app_assoc. cbn [app].
    assert (Q : parses GCond (t1 ++ tk :: t2 ++ RP :: rest) (PBin o p1 p2) (RP :: rest)).
    { apply (lift 0 (jlev j)); [lia|destruct Kj; subst j; cbn; lia| |exact Logic.I]. apply A1; [cbn; rewrite B; lia|].
      apply (T2 p1 (t2 ++ RP :: rest) p2 (RP :: rest)); [apply A2; exact Logic.I|].
      destruct Kj; subst j; [apply sumT_nil|apply termT_nil]; exact Logic.I. }
    apply r_paren; [exact (starts_expr RP _ _ _ Q)|exact Q].
  - intros I C r v PL EO Q E. destruct (eqs2 _ _ _ _ _ _ Q) as [Q1 Q2]. destruct (eval2 I r k t a b v) as [x [y [Ex [Ey Eo]]]]; [cbn in K |- *; tauto|exact E|].
    cbn [value]. rewrite (M1 I C r x PL EO Q1 Ex), (M2 I C r y PL EO Q2 Ey). exact (V I C x y v PL Eo).
Qed.

(** comparisons *)
Definition cmps : list kind := [KEq; KLt; KLe; KGt; KGe].
Definition ctok (k : kind) : tok := match k with KEq => CEq | KLt => CLt | KLe => CLe | KGt => CGt | _ => CGe end.
Definition cop (k : kind) : cmp := match k with KEq => OEq | KLt => OLt | KLe => OLe | KGt => OGt | _ => OGe end.
Fixpoint same_eqb (a b : val) {struct a} : same_kind a b = true -> py_eqb a b = val_eqb a b.
Proof.
  destruct a as [x|x|xs|xs|f], b as [y|y|ys|ys|g]; try reflexivity; intros H; try discriminate H; cbn in H |- *.
  - revert ys H. induction xs as [|x xs IH]; intros [|y ys] H; try reflexivity. cbn in *. apply andb_true_iff in H. destruct H as [H1 H2].
    rewrite (same_eqb x y H1), (IH ys H2). reflexivity.
  - revert ys H. induction xs as [|x xs IH]; intros [|y ys] H; try reflexivity. cbn in *. apply andb_true_iff in H. destruct H as [H1 H2].
    rewrite (same_eqb x y H1), (IH ys H2). reflexivity.
Qed.
Lemma cmp_good k t a b : In k cmps -> good a -> good b -> 5 <= level a -> 5 <= level b -> good (Node k t [a; b]).
Proof.
  intros K Ga Gb La Lb.
  destruct (good_at 5 a Ga La) as [s1 [t1 [P1 [S1 [X1 [p1 [A1 M1]]]]]]]. destruct (good_at 5 b Gb Lb) as [s2 [t2 [P2 [S2 [X2 [p2 [A2 M2]]]]]]].
  assert (Z : exists sep, py_join k = None /\ py_paren k = None /\ py_cmp k = Some sep /\ sep_tok sep (ctok k) /\ level (Node k t [a; b]) = 4 /\
              cmp_of (ctok k) = Some (cop k) /\ binds (ctok k) = Some 4).
  { destruct K as [<-|[<-|[<-|[<-|[<-|[]]]]]]; eexists; repeat split; cbn; try reflexivity; try (intros; reflexivity); discriminate. }
  destruct Z as [sep [J [Pp [Pc [Sp [Lv [Co B]]]]]]].
  apply (mk_good _ (s1 ++ sep ++ s2) (t1 ++ ctok k :: t2)).
  - cbn [to_python]. rewrite J, Pp, Pc, P1. cbn [bindR]. rewrite P2. reflexivity.
  - apply starts_app, S1.
  - apply lexes_sep; assumption.
  - rewrite Lv. exists (PCmp p1 [(cop k, p2)]). split.
    + intros rest S0. rewrite <- app_assoc. cbn [app goal_of]. apply (r_cmp _ p1 (ctok k :: t2 ++ rest)); [apply A1; cbn; rewrite B; lia|].
      apply (r_cmpT (ctok k) (cop k) _ _ _ p2 rest); [exact Co|apply A2; apply (stops_le 4); [lia|exact S0]|]. exact (cmpT_nil p1 [(cop k, p2)] rest S0).
    + intros I C r v PL EO Q E. destruct (eqs2 _ _ _ _ _ _ Q) as [Q1 Q2].
      destruct (eval2 I r k t a b v) as [x [y [Ex [Ey Eo]]]]; [unfold cmps in K; cbn in K |- *; tauto|exact E|].
      cbn [value]. rewrite (M1 I C r x PL EO Q1 Ex), (M2 I C r y PL EO Q2 Ey).
      assert (D : exists d, cmp_val (cop k) x y = Some d /\ v = VBool d).
      { destruct K as [<-|K].
        - cbn [op_val] in Eo. injection Eo as <-. exists (val_eqb x y). split; [|reflexivity]. cbn. f_equal. apply same_eqb. destruct Q as [_ Q]. apply Q; [reflexivity|].
          cbn [mapO]. rewrite Ex, Ey. reflexivity.
        - destruct K as [<-|[<-|[<-|[<-|[]]]]]; cbn [op_val int2] in Eo; destruct x, y; try discriminate Eo; injection Eo as <-; eexists; split; reflexivity. }
      destruct D as [d [-> ->]]. destruct d; reflexivity.
  - intros k2 K2. rewrite Lv. destruct K2 as [<-|[<-|[<-|[<-|[]]]]]; cbn; lia.
  - rewrite Lv. discriminate.
Qed.
Lemma not_good t a : good a -> 3 <= level a -> good (Node KNot t [a]).
Proof.
  intros Ga La. destruct (good_at 3 a Ga La) as [s1 [t1 [P1 [S1 [X1 [p1 [A1 M1]]]]]]].
  apply (mk_good _ ("not " ++ s1) (KwNot :: t1)).
  - cbn [to_python py_join py_paren py_cmp]. rewrite P1. reflexivity.
  - eexists; eexists; split; reflexivity.
  - apply (lexes_pre "not " KwNot); [intros; reflexivity|exact X1].
  - exists (PNot p1). split.
    + intros rest S0. cbn [app level goal_of]. apply r_not. apply A1, S0.
    + intros I C r v PL EO Q E. apply eqs_args in Q. inversion Q; subst. cbn [eval mapO] in E. destruct (eval I r a) as [x|] eqn:Ex; [|discriminate E].
      cbn [op_val] in E. destruct x; try discriminate E. injection E as <-. cbn [value]. rewrite (M1 I C r (VBool b) PL EO H1 Ex). reflexivity.
  - intros k2 K2. destruct K2 as [<-|[<-|[<-|[<-|[]]]]]; cbn; lia.
  - discriminate.
Qed.
Lemma level_pos e : 1 <= level e.
Proof. destruct e as [a|k t l]; [cbn; lia|]. destruct k; cbn; try lia. destruct l as [|[[]|] []]; try lia. destruct (z <? 0)%Z; lia. Qed.
Ltac strs := repeat (rewrite !app_s; cbn [String.append]); reflexivity.
Lemma ite_good t c a b : good c -> good a -> good b -> good (Node KIte t [c; a; b]).
Proof.
  intros Gc Ga Gb.
  destruct (good_at 1 c Gc (level_pos c)) as [s0 [t0 [P0 [S0 [X0 [p0 [A0 M0]]]]]]].
  destruct (good_at 1 a Ga (level_pos a)) as [s1 [t1 [P1 [S1 [X1 [p1 [A1 M1]]]]]]].
  destruct (good_at 0 b Gb (Nat.le_0_l _)) as [s2 [t2 [P2 [S2 [X2 [p2 [A2 M2]]]]]]].
  apply (prim_good _ ("(" ++ s1 ++ " if " ++ s0 ++ " else " ++ s2 ++ ")") (LP :: (t1 ++ KwIf :: (t0 ++ KwElse :: t2)) ++ [RP]) (PCond p0 p1 p2)).
  - cbn [to_python py_join py_paren py_cmp]. rewrite P1. cbn [bindR]. rewrite P0. cbn [bindR]. rewrite P2. reflexivity.
  - eexists; eexists; split; reflexivity.
  - replace ("(" ++ s1 ++ " if " ++ s0 ++ " else " ++ s2 ++ ")")%string with (String "(" ((s1 ++ " if " ++ (s0 ++ " else " ++ s2)) ++ ")")) by strs.
    apply (lexes_op "(" _ _ eq_refl). apply lexes_cat; [|apply (lexes_end ")"); reflexivity|reflexivity|discriminate].
    apply lexes_sep; [sept|exact X1|]. apply lexes_sep; [sept|exact X0|exact X2].
  - reflexivity.
  - apply atom_level. intros rest. cbn [app]. rewrite <- !app_assoc. cbn [app]. rewrite <- !app_assoc. cbn [app].
    assert (Q : parses GCond (t1 ++ KwIf :: t0 ++ KwElse :: t2 ++ RP :: rest) (PCond p0 p1 p2) (RP :: rest)).
    { apply (r_cond _ p1 (t0 ++ KwElse :: t2 ++ RP :: rest) p0 (t2 ++ RP :: rest)); [apply A1; cbn; lia|apply A0; exact Logic.I|apply A2; exact Logic.I]. }
    apply r_paren; [exact (starts_expr RP _ _ _ Q)|exact Q].
  - intros I C r v PL EO Q E. apply eqs_args in Q. inversion Q as [|? ? Q0 Q']; subst. inversion Q' as [|? ? Q1 Q'']; subst. inversion Q'' as [|? ? Q2 ?]; subst.
    cbn [eval] in E. destruct (eval I r c) as [x|] eqn:Ex; [|discriminate E]. destruct x as [|d| | |]; try discriminate E.
    cbn [value]. rewrite (M0 I C r _ PL EO Q0 Ex). cbn [truth]. destruct d; [apply (M1 I C r v)|apply (M2 I C r v)]; auto.
Qed.
Lemma var_good k t x : k = KVar \/ k = KNonTerm -> py_name x = true -> good (Node k t [Atom (PStr x)]).
Proof.
  intros K N. destruct (word_name x N) as [X S0]. apply (prim_good _ x [TName x] (PName x)).
  - destruct K; subst k; reflexivity.
  - exact S0.
  - exact X.
  - destruct K; subst k; reflexivity.
  - apply atom_level. intros rest. apply r_name.
  - intros I C r v PL EO Q E. destruct K; subst k; exact E.
Qed.
Lemma int_good z : good (Node KLit TInt [Atom (PInt z)]).
Proof.
  destruct (Z.ltb_spec z 0) as [N|N].
  - destruct (word_neg z N) as [X S0]. apply (mk_good _ (string_of_Z z) [Minus; TNum (- z)]); try assumption; [reflexivity| | |cbn [level]; rewrite (proj2 (Z.ltb_lt z 0) N); discriminate].
    + exists (PNeg (PNum (- z))). cbn [level]. rewrite (proj2 (Z.ltb_lt z 0) N). split.
      * intros rest S1. cbn [app goal_of]. apply r_neg. apply (lift 7 8); [lia|lia| |exact S1]. apply (r_prim _ (PNum (- z)) rest); [apply r_num|].
        apply primT_nil. apply (stops_le 7); [lia|exact S1].
      * intros I C r v PL EO Q E. cbn [eval lit_val] in E. injection E as <-. cbn. rewrite Z.opp_involutive. reflexivity.
    + intros k K. cbn [level]. rewrite (proj2 (Z.ltb_lt z 0) N). destruct K as [<-|[<-|[<-|[<-|[]]]]]; cbn; lia.
  - destruct (word_num z N) as [X S0]. apply (prim_good _ (string_of_Z z) [TNum z] (PNum z)); try assumption; [reflexivity| | |].
    + cbn [level]. rewrite (proj2 (Z.ltb_ge z 0) N). reflexivity.
    + apply atom_level. intros rest. apply r_num.
    + intros I C r v PL EO Q E. exact E.
Qed.
Lemma bool_good b : good (Node KLit TBool [Atom (PBool b)]).
Proof.
  apply (prim_good _ (if b then "True" else "False") [TBoolLit b] (PBoolE b)); [destruct b; reflexivity|destruct b; eexists; eexists; split; reflexivity| |reflexivity| |].
  - destruct b; refine (lexes_word _ _ _); try reflexivity; discriminate.
  - apply atom_level. intros rest. apply r_boollit.
  - intros I C r v PL EO Q E. exact E.
Qed.
Lemma good_prim e : good e -> level e = 8 -> exists s ts p, to_python e = Ok s /\ starts s /\ lexes s ts /\ prim p ts /\ means e p.
Proof. intros [s [ts [P [S0 [Lx [_ [_ Pr]]]]]]] Lv. destruct (Pr Lv) as [p [A M]]. exists s, ts, p. auto. Qed.

(** ** calls *)
(** arguments between parentheses *)
Lemma lexes_args ss tss : Forall2 lexes ss tss -> lexes ("(" ++ join ", " ss ++ ")") (LP :: tjoin Comma tss ++ [RP]).
Proof.
  intros F. apply (lexes_op "(" _ _ eq_refl). apply lexes_cat; [apply (lexes_join ", "); [apply sep_comma|exact F]|apply (lexes_end ")"); reflexivity|reflexivity|discriminate].
Qed.
Lemma call_prim f ts its : prim f ts -> Forall (fun x => at_level 0 (fst x) (snd x)) its ->
  prim (PCall f (map snd its)) (ts ++ LP :: tjoin Comma (map fst its) ++ [RP]).
Proof.
  intros Pf F ts1 q rest Q. rewrite <- app_assoc. apply Pf. cbn [app]. rewrite <- app_assoc. cbn [app].
  apply (r_call f _ (map (fun x => (false, snd x)) its) ts1); [apply items_read0; [left; reflexivity|exact F]|].
  rewrite map_map. cbn [snd]. exact Q.
Qed.
Lemma name_prim x : prim (PName x) [TName x].
Proof. apply atom_level. intros rest. apply r_name. Qed.
Lemma callvalue_good t f rest : good f -> level f = 8 -> Forall good rest -> good (Node KCallValue t (f :: rest)).
Proof.
  intros Gf Lf Gr. destruct (good_prim f Gf Lf) as [s1 [t1 [p1 [P1 [S1 [X1 [A1 M1]]]]]]]. destruct (good_args rest Gr) as [ss [its [M [Ss [L [A [Mn N]]]]]]].
  apply (prim_good _ (s1 ++ "(" ++ join ", " ss ++ ")") (t1 ++ LP :: tjoin Comma (map fst its) ++ [RP]) (PCall p1 (map snd its))).
  - cbn [to_python py_join py_paren py_cmp]. rewrite P1. cbn [bindR]. rewrite M. reflexivity.
  - apply starts_app, S1.
  - apply lexes_cat; [exact X1|apply lexes_args, L|reflexivity|discriminate].
  - reflexivity.
  - apply call_prim; assumption.
  - intros I C r v PL EO Q E. apply eqs_args in Q. inversion Q as [|? ? Q1 Q2]; subst. cbn [eval mapO] in E.
    destruct (eval I r f) as [w|] eqn:Ef; [|discriminate E]. destruct (mapO (eval I r) rest) as [vs|] eqn:Ev; [|discriminate E]. cbn [op_val] in E.
    destruct w as [| | | |g]; try discriminate E.
    pose proof (vals_args I C r rest _ vs PL EO Q2 Mn Ev) as Vs. pose proof (M1 I C r _ PL EO Q1 Ef) as V1.
    cbn [value]. rewrite Vs. pose proof (pl_fun _ _ PL g vs v E) as Cv. destruct p1; try (rewrite V1; exact Cv).
    cbn [value] in V1. rewrite V1. exact Cv.
Qed.
Lemma call_eval I r k t f rest v : k = KCall \/ k = KTargetCall -> eval I r (Node k t (Atom (PStr f) :: rest)) = Some v ->
  exists vs, mapO (eval I r) rest = Some vs /\ i_call I f vs = Some v.
Proof.
  intros K E. assert (E' : match mapO (eval I r) rest with Some vs => i_call I f vs | None => None end = Some v) by (destruct K; subst k; exact E).
  destruct (mapO (eval I r) rest) as [vs|]; [|discriminate E']. exists vs. auto.
Qed.
Lemma call_print k t f rest ss : k = KCall \/ k = KTargetCall -> mapR to_python rest = Ok ss -> to_python (Node k t (Atom (PStr f) :: rest)) = py_call f ss.
Proof. intros K M. destruct K; subst k; cbn [to_python py_join py_paren py_cmp]; rewrite M; reflexivity. Qed.
Lemma fun_good k t f rest : k = KCall \/ k = KTargetCall -> smem f notations = false -> fn f = true -> py_name f = true -> f <> "len" ->
  Forall good rest -> good (Node k t (Atom (PStr f) :: rest)).
Proof.
  intros K Nf Ff N Nl Gr. destruct (word_name f N) as [X S0]. destruct (good_args rest Gr) as [ss [its [M [Ss [L [A [Mn Ln]]]]]]].
  apply (prim_good _ (f ++ "(" ++ join ", " ss ++ ")") ([TName f] ++ LP :: tjoin Comma (map fst its) ++ [RP]) (PCall (PName f) (map snd its))).
  - rewrite (call_print k t f rest ss K M). unfold py_call. clear - Nf.
    cbn [smem notations f_len f_get f_prepend f_append f_empty f_tail f_take f_slice f_slice_len app existsb] in Nf.
    repeat (apply orb_false_iff in Nf; destruct Nf as [? Nf]). cbn [smem existsb].
    repeat match goal with H : String.eqb f _ = false |- _ => rewrite H; clear H end. reflexivity.
  - apply starts_app, S0.
  - apply lexes_cat; [exact X|apply lexes_args, L|reflexivity|discriminate].
  - destruct K; subst k; reflexivity.
  - apply call_prim; [apply name_prim|exact A].
  - intros I C r v PL EO Q E. apply eqs_args in Q. inversion Q as [|? ? Q1 Q2]; subst. destruct (call_eval I r k t f rest v K E) as [vs [Ev Ec]].
    cbn [value]. rewrite (vals_args I C r rest _ vs PL EO Q2 Mn Ev), (EO f Ff). destruct (String.eqb_spec f "len"); [contradiction|]. exact (pl_fun _ _ PL f vs v Ec).
Qed.
Lemma tuple_good t args : List.length args <> 1 -> Forall good args -> good (Node KTupleExpr t args).
Proof.
  intros N1 Ga. destruct (good_args args Ga) as [ss [its [M [Ss [L [A [Mn Ln]]]]]]].
  apply (prim_good _ ("(" ++ join ", " ss ++ ")") (LP :: tjoin Comma (map fst its) ++ [RP]) (PTuple (map snd its))).
  - cbn [to_python py_join py_paren py_cmp]. rewrite M. reflexivity.
  - eexists; eexists; split; reflexivity.
  - apply lexes_args, L.
  - reflexivity.
  - apply atom_level. intros rest. cbn [app]. rewrite <- app_assoc. cbn [app]. destruct its as [|[ts p] [|[ts2 p2] its]].
    + apply r_unit.
    + cbn in Ln. congruence.
    + inversion A as [|? ? A1 A']; subst. cbn [fst snd] in A1.
      change (tjoin Comma (map fst ((ts, p) :: (ts2, p2) :: its))) with (ts ++ Comma :: tjoin Comma (map fst ((ts2, p2) :: its))).
      rewrite <- app_assoc. cbn [app]. specialize (A1 (Comma :: tjoin Comma (map fst ((ts2, p2) :: its)) ++ RP :: rest) Logic.I). cbn [goal_of] in A1.
      pose proof (items_read0 RP ((ts2, p2) :: its) (or_introl eq_refl) A' rest false) as Q.
      pose proof (r_tuple _ p _ _ _ (starts_expr RP _ _ _ A1) A1 Q) as R. rewrite map_map in R. exact R.
  - intros I C r v PL EO Q E. apply eqs_args in Q. cbn [eval] in E. destruct (mapO (eval I r) args) as [vs|] eqn:Ev; [|discriminate E].
    cbn [op_val] in E. injection E as <-. cbn [value]. rewrite (vals_args I C r args _ vs PL EO Q Mn Ev). reflexivity.
Qed.
(** ** the functions with their own notation *)
Lemma lib_good k t f rest s ts p ps : k = KCall \/ k = KTargetCall -> smem f notations = true -> (exists ss, mapR to_python rest = Ok ss /\ py_call f ss = Ok s) ->
  starts s -> lexes s ts -> prim p ts -> Forall2 means rest ps ->
  (forall C r vs v, r "len" = None -> Forall2 (fun p v => value C r p = Some v) ps vs -> lib_result f vs v -> value C r p = Some v) ->
  good (Node k t (Atom (PStr f) :: rest)).
Proof.
  intros K Nf [ss [M Pc]] S0 X A Mn V. apply (prim_good _ s ts p); try assumption.
  - rewrite (call_print k t f rest ss K M). exact Pc.
  - destruct K; subst k; reflexivity.
  - intros I C r v PL EO Q E. apply eqs_args in Q. inversion Q as [|? ? Q1 Q2]; subst. destruct (call_eval I r k t f rest v K E) as [vs [Ev Ec]].
    apply (V C r vs v (EO "len" fn_len)); [|exact (pl_lib _ _ PL f vs v Nf Ec)].
    clear - PL EO Q2 Mn Ev. revert vs Ev. induction Mn as [|a p0 args ps Ma Mn IH]; intros vs Ev; cbn [mapO] in Ev.
    + injection Ev as <-. constructor.
    + inversion Q2 as [|? ? Qa Q3]; subst. destruct (eval I r a) as [w|] eqn:Ea; [|discriminate Ev]. destruct (mapO (eval I r) args) as [ws|]; [|discriminate Ev].
      injection Ev as <-. constructor; [exact (Ma I C r w PL EO Qa Ea)|apply IH; auto].
Qed.
Lemma two f a b : smem f [a; b] = true -> f = a \/ f = b.
Proof.
  intros H. cbn [smem existsb] in H. apply orb_true_iff in H. destruct H as [H|H]; [left; apply String.eqb_eq, H|].
  apply orb_true_iff in H. destruct H as [H|H]; [right; apply String.eqb_eq, H|discriminate H].
Qed.
Ltac fcases H := let F := fresh in pose proof (two _ _ _ H) as F; clear H; destruct F; subst.
Lemma len_good k t f a : k = KCall \/ k = KTargetCall -> smem f f_len = true -> good a -> good (Node k t [Atom (PStr f); a]).
Proof.
  intros K Ff Ga. destruct (good_at 0 a Ga (Nat.le_0_l _)) as [s1 [t1 [P1 [S1 [X1 [p1 [A1 M1]]]]]]].
  apply (lib_good k t f [a] ("len(" ++ s1 ++ ")") ([TName "len"] ++ LP :: tjoin Comma [t1] ++ [RP]) (PCall (PName "len") [p1]) [p1] K).
  - fcases Ff; reflexivity.
  - exists [s1]. cbn [mapR]. rewrite P1. split; [reflexivity|]. fcases Ff; reflexivity.
  - eexists; eexists; split; reflexivity.
  - change ("len(" ++ s1 ++ ")")%string with ("len" ++ "(" ++ join ", " [s1] ++ ")")%string.
    apply lexes_cat; [exact (proj1 (word_name "len" eq_refl))|apply lexes_args; constructor; [exact X1|constructor]|reflexivity|discriminate].
  - apply (call_prim (PName "len") [TName "len"] [(t1, p1)]); [apply name_prim|]. constructor; [exact A1|constructor].
  - repeat constructor. exact M1.
  - intros C r vs v Rl F R. assert (R' : exists l, vs = [VList l] /\ v = VInt (Z.of_nat (List.length l))) by (fcases Ff; exact R).
    destruct R' as [l [-> ->]]. inversion F as [|? ? ? ? V1 F1]; subst. cbn [value mapO]. rewrite V1, Rl. reflexivity.
Qed.
Lemma index_prim pa ta pi ti : prim pa ta -> at_level 0 ti pi -> prim (PIndex pa pi) (ta ++ LB :: ti ++ [RB]).
Proof.
  intros Pa Ai ts1 q rest Q. rewrite <- app_assoc. apply Pa. cbn [app]. rewrite <- app_assoc. cbn [app].
  pose proof (Ai (RB :: ts1) Logic.I) as R. cbn [goal_of] in R. exact (r_index pa _ pi ts1 q rest (starts_expr Colon _ _ _ R) R Q).
Qed.
Lemma lexes_br s1 t1 u us : lexes s1 t1 -> lexes u us -> lexes (s1 ++ "[" ++ u ++ "]") (t1 ++ LB :: us ++ [RB]).
Proof.
  intros A B. apply lexes_cat; [exact A| |reflexivity|discriminate]. apply (lexes_op "[" _ _ eq_refl).
  apply lexes_cat; [exact B|apply (lexes_end "]"); reflexivity|reflexivity|discriminate].
Qed.
Lemma get_good k t f a i : k = KCall \/ k = KTargetCall -> smem f f_get = true -> good a -> level a = 8 -> good i -> good (Node k t [Atom (PStr f); a; i]).
Proof.
  intros K Ff Ga La Gi. destruct (good_prim a Ga La) as [s1 [t1 [p1 [P1 [S1 [X1 [A1 M1]]]]]]].
  destruct (good_at 0 i Gi (Nat.le_0_l _)) as [s2 [t2 [P2 [S2 [X2 [p2 [A2 M2]]]]]]].
  apply (lib_good k t f [a; i] (s1 ++ "[" ++ s2 ++ "]") (t1 ++ LB :: t2 ++ [RB]) (PIndex p1 p2) [p1; p2] K).
  - fcases Ff; reflexivity.
  - exists [s1; s2]. cbn [mapR]. rewrite P1, P2. split; [reflexivity|]. fcases Ff; reflexivity.
  - apply starts_app, S1.
  - apply lexes_br; assumption.
  - apply index_prim; assumption.
  - constructor; [exact M1|constructor; [exact M2|constructor]].
  - intros C r vs v Rl F R.
    assert (R' : exists l i, vs = [VList l; VInt i] /\ (0 <= i)%Z /\ nth_error l (Z.to_nat i) = Some v) by (fcases Ff; exact R).
    destruct R' as [l [z [-> [Hz E]]]]. inversion F as [|? ? ? ? V1 F1]; subst. inversion F1 as [|? ? ? ? V2 F2]; subst. cbn [value]. rewrite V1, V2. cbn [seq num].
    unfold index. rewrite (proj2 (Z.ltb_ge z 0) Hz), (proj2 (Z.ltb_ge z 0) Hz). exact E.
Qed.
Lemma prepend_good k t f a l : k = KCall \/ k = KTargetCall -> smem f f_prepend = true -> good a -> good l -> 5 <= level l -> good (Node k t [Atom (PStr f); a; l]).
Proof.
  intros K Ff Ga Gl Ll. destruct (good_at 0 a Ga (Nat.le_0_l _)) as [s1 [t1 [P1 [S1 [X1 [p1 [A1 M1]]]]]]].
  destruct (good_at 5 l Gl Ll) as [s2 [t2 [P2 [S2 [X2 [p2 [A2 M2]]]]]]].
  apply (lib_good k t f [a; l] ("[" ++ s1 ++ ", *" ++ s2 ++ "]") (LB :: (t1 ++ Comma :: Star :: t2) ++ [RB]) (PList [(false, p1); (true, p2)]) [p1; p2] K).
  - fcases Ff; reflexivity.
  - exists [s1; s2]. cbn [mapR]. rewrite P1, P2. split; [reflexivity|]. fcases Ff; reflexivity.
  - eexists; eexists; split; reflexivity.
  - replace ("[" ++ s1 ++ ", *" ++ s2 ++ "]")%string with (String "[" ((s1 ++ ", " ++ String "*" s2) ++ "]")) by strs.
    apply (lexes_op "[" _ _ eq_refl). apply lexes_cat; [|apply (lexes_end "]"); reflexivity|reflexivity|discriminate].
    apply lexes_sep; [apply sep_comma|exact X1|]. apply lexes_star; assumption.
  - apply atom_level. intros rest. cbn [app]. rewrite <- ?app_assoc. cbn [app]. rewrite <- ?app_assoc. cbn [app]. apply r_list.
    pose proof (A1 (Comma :: Star :: t2 ++ RB :: rest) Logic.I) as Q1. cbn [goal_of] in Q1.
    apply (r_item RB true [] _ p1 (Star :: t2 ++ RB :: rest)); [exact (starts_expr RB _ _ _ Q1)|exact (starts_expr Star _ _ _ Q1)|exact Q1|].
    apply (r_last_star [(false, p1)]). apply A2. exact Logic.I.
  - constructor; [exact M1|constructor; [exact M2|constructor]].
  - intros C r vs v Rl F R. assert (R' : exists a l, vs = [a; VList l] /\ v = VList (a :: l)) by (fcases Ff; exact R).
    destruct R' as [w [ws [-> ->]]]. inversion F as [|? ? ? ? V1 F1]; subst. inversion F1 as [|? ? ? ? V2 F2]; subst.
    cbn [value mapO snd fst]. rewrite V1, V2. cbn [seq option_map concat app]. rewrite app_nil_r. reflexivity.
Qed.
Lemma append_good k t f l a : k = KCall \/ k = KTargetCall -> smem f f_append = true -> good l -> 5 <= level l -> good a -> good (Node k t [Atom (PStr f); l; a]).
Proof.
  intros K Ff Gl Ll Ga. destruct (good_at 0 a Ga (Nat.le_0_l _)) as [s2 [t2 [P2 [S2 [X2 [p2 [A2 M2]]]]]]].
  destruct (good_at 5 l Gl Ll) as [s1 [t1 [P1 [S1 [X1 [p1 [A1 M1]]]]]]].
  apply (lib_good k t f [l; a] ("[*" ++ s1 ++ ", " ++ s2 ++ "]") (LB :: Star :: (t1 ++ Comma :: t2) ++ [RB]) (PList [(true, p1); (false, p2)]) [p1; p2] K).
  - fcases Ff; reflexivity.
  - exists [s1; s2]. cbn [mapR]. rewrite P1, P2. split; [reflexivity|]. fcases Ff; reflexivity.
  - eexists; eexists; split; reflexivity.
  - replace ("[*" ++ s1 ++ ", " ++ s2 ++ "]")%string with (String "[" (String "*" ((s1 ++ ", " ++ s2) ++ "]"))) by strs.
    apply (lexes_op "[" _ _ eq_refl). apply lexes_star; [apply starts_app, starts_app, S1|].
    apply lexes_cat; [|apply (lexes_end "]"); reflexivity|reflexivity|discriminate].
    apply lexes_sep; [apply sep_comma|exact X1|exact X2].
  - apply atom_level. intros rest. cbn [app]. rewrite <- !app_assoc. cbn [app]. rewrite <- ?app_assoc. cbn [app]. apply r_list.
    apply (r_star [] _ p1 (t2 ++ RB :: rest)); [apply A1; exact Logic.I|].
    pose proof (A2 (RB :: rest) Logic.I) as Q2. cbn [goal_of] in Q2.
    exact (r_last RB true [(true, p1)] _ p2 (RB :: rest) rest (starts_expr RB _ _ _ Q2) (starts_expr Star _ _ _ Q2) Q2 eq_refl eq_refl).
  - constructor; [exact M1|constructor; [exact M2|constructor]].
  - intros C r vs v Rl F R. assert (R' : exists l a, vs = [VList l; a] /\ v = VList (l ++ [a])) by (fcases Ff; exact R).
    destruct R' as [ws [w [-> ->]]]. inversion F as [|? ? ? ? V1 F1]; subst. inversion F1 as [|? ? ? ? V2 F2]; subst.
    cbn [value mapO snd fst]. rewrite V1, V2. reflexivity.
Qed.
Lemma empty_good k t f : k = KCall \/ k = KTargetCall -> smem f f_empty = true -> good (Node k t [Atom (PStr f)]).
Proof.
  intros K Ff. apply (lib_good k t f [] "[]" [LB; RB] (PList []) [] K).
  - fcases Ff; reflexivity.
  - exists []. split; [reflexivity|]. fcases Ff; reflexivity.
  - eexists; eexists; split; reflexivity.
  - apply (lexes_op "[" _ _ eq_refl). apply (lexes_end "]"); reflexivity.
  - apply atom_level. intros rest. cbn [app]. apply r_list. apply r_end. reflexivity.
  - constructor.
  - intros C r vs v Rl F R. assert (R' : vs = [] /\ v = VList []) by (fcases Ff; exact R). destruct R' as [_ ->]. reflexivity.
Qed.
Lemma clamp_nat (l : list val) z : (0 <= z)%Z -> clamp l z = Nat.min (Z.to_nat z) (List.length l).
Proof. intros H. unfold clamp. rewrite (proj2 (Z.ltb_ge z 0) H). rewrite Z2Nat.inj_min, Nat2Z.id. reflexivity. Qed.
Lemma skipn_min {A} n (l : list A) : skipn (Nat.min n (List.length l)) l = skipn n l.
Proof. destruct (Nat.le_ge_cases n (List.length l)) as [H|H]; [rewrite Nat.min_l by exact H; reflexivity|]. rewrite Nat.min_r, skipn_all by exact H. symmetry. apply skipn_all2, H. Qed.
Lemma slice_nat (l : list val) i j : (0 <= i)%Z -> (0 <= j)%Z -> slice l (Some i) (Some j) = firstn (Z.to_nat j - Z.to_nat i) (skipn (Z.to_nat i) l).
Proof.
  intros Hi Hj. unfold slice. rewrite (clamp_nat l i Hi), (clamp_nat l j Hj), skipn_min.
  set (a := Z.to_nat i). set (b := Z.to_nat j). pose proof (skipn_length a l) as N.
  destruct (Nat.le_ge_cases b (List.length l)) as [H|H].
  - rewrite (Nat.min_l b) by exact H. destruct (Nat.le_ge_cases a (List.length l)) as [H2|H2]; [rewrite (Nat.min_l a) by exact H2; reflexivity|].
    rewrite !(firstn_all2 (skipn a l)) by lia. reflexivity.
  - rewrite (Nat.min_r b) by exact H. rewrite !(firstn_all2 (skipn a l)) by lia. reflexivity.
Qed.
Lemma slice_from (l : list val) i : (0 <= i)%Z -> slice l (Some i) None = skipn (Z.to_nat i) l.
Proof.
  intros Hi. unfold slice. rewrite (clamp_nat l i Hi), skipn_min. pose proof (skipn_length (Z.to_nat i) l) as N. apply firstn_all2. lia.
Qed.
Lemma slice_upto (l : list val) i : (0 <= i)%Z -> slice l None (Some i) = firstn (Z.to_nat i) l.
Proof.
  intros Hi. unfold slice. rewrite (clamp_nat l i Hi), Nat.sub_0_r. cbn [skipn].
  destruct (Nat.le_ge_cases (Z.to_nat i) (List.length l)) as [H|H]; [rewrite Nat.min_l by exact H; reflexivity|].
  rewrite Nat.min_r, firstn_all by exact H. symmetry. apply firstn_all2, H.
Qed.
Lemma tail_good k t f a i : k = KCall \/ k = KTargetCall -> smem f f_tail = true -> good a -> level a = 8 -> good i -> good (Node k t [Atom (PStr f); a; i]).
Proof.
  intros K Ff Ga La Gi. destruct (good_prim a Ga La) as [s1 [t1 [p1 [P1 [S1 [X1 [A1 M1]]]]]]].
  destruct (good_at 0 i Gi (Nat.le_0_l _)) as [s2 [t2 [P2 [S2 [X2 [p2 [A2 M2]]]]]]].
  apply (lib_good k t f [a; i] (s1 ++ "[" ++ s2 ++ ":]") (t1 ++ LB :: (t2 ++ [Colon]) ++ [RB]) (PSlice p1 (Some p2) None) [p1; p2] K).
  - fcases Ff; reflexivity.
  - exists [s1; s2]. cbn [mapR]. rewrite P1, P2. split; [reflexivity|]. fcases Ff; reflexivity.
  - apply starts_app, S1.
  - replace (s1 ++ "[" ++ s2 ++ ":]")%string with (s1 ++ "[" ++ (s2 ++ ":") ++ "]")%string by strs. apply lexes_br; [exact X1|].
    apply lexes_cat; [exact X2|apply (lexes_end ":"); reflexivity|reflexivity|discriminate].
  - intros ts1 q rest Q. rewrite <- app_assoc. apply A1. cbn [app]. rewrite <- ?app_assoc. cbn [app].
    pose proof (A2 (Colon :: RB :: ts1) Logic.I) as R. cbn [goal_of] in R. exact (r_slice_lo p1 _ p2 ts1 q rest (starts_expr Colon _ _ _ R) R Q).
  - constructor; [exact M1|constructor; [exact M2|constructor]].
  - intros C r vs v Rl F R.
    assert (R' : exists l n, vs = [VList l; VInt n] /\ (0 <= n)%Z /\ v = VList (skipn (Z.to_nat n) l)) by (fcases Ff; exact R).
    destruct R' as [l [z [-> [Hz ->]]]]. inversion F as [|? ? ? ? V1 F1]; subst. inversion F1 as [|? ? ? ? V2 F2]; subst. cbn [value]. rewrite V1, V2.
    cbn [seq num option_map reseq]. rewrite slice_from by exact Hz. reflexivity.
Qed.
Lemma take_good k t f a i : k = KCall \/ k = KTargetCall -> smem f f_take = true -> good a -> level a = 8 -> good i -> good (Node k t [Atom (PStr f); a; i]).
Proof.
  intros K Ff Ga La Gi. destruct (good_prim a Ga La) as [s1 [t1 [p1 [P1 [S1 [X1 [A1 M1]]]]]]].
  destruct (good_at 0 i Gi (Nat.le_0_l _)) as [s2 [t2 [P2 [S2 [X2 [p2 [A2 M2]]]]]]].
  apply (lib_good k t f [a; i] (s1 ++ "[:" ++ s2 ++ "]") (t1 ++ LB :: (Colon :: t2) ++ [RB]) (PSlice p1 None (Some p2)) [p1; p2] K).
  - fcases Ff; reflexivity.
  - exists [s1; s2]. cbn [mapR]. rewrite P1, P2. split; [reflexivity|]. fcases Ff; reflexivity.
  - apply starts_app, S1.
  - replace (s1 ++ "[:" ++ s2 ++ "]")%string with (s1 ++ "[" ++ (String ":" s2) ++ "]")%string by strs. apply lexes_br; [exact X1|].
    apply (lexes_op ":" _ _ eq_refl), X2.
  - intros ts1 q rest Q. rewrite <- app_assoc. apply A1. cbn [app]. rewrite <- ?app_assoc. cbn [app].
    pose proof (A2 (RB :: ts1) Logic.I) as R. cbn [goal_of] in R. exact (r_slice_hi p1 _ p2 ts1 q rest (starts_expr RB _ _ _ R) (starts_expr Comma _ _ _ R) R Q).
  - constructor; [exact M1|constructor; [exact M2|constructor]].
  - intros C r vs v Rl F R.
    assert (R' : exists l n, vs = [VList l; VInt n] /\ (0 <= n)%Z /\ v = VList (firstn (Z.to_nat n) l)) by (fcases Ff; exact R).
    destruct R' as [l [z [-> [Hz ->]]]]. inversion F as [|? ? ? ? V1 F1]; subst. inversion F1 as [|? ? ? ? V2 F2]; subst. cbn [value]. rewrite V1, V2.
    cbn [seq num option_map reseq]. rewrite slice_upto by exact Hz. reflexivity.
Qed.
Lemma slice_prim pa ta pi ti pj tj : prim pa ta -> at_level 0 ti pi -> (forall rest, parses GCond (tj ++ RB :: rest) pj (RB :: rest)) ->
  prim (PSlice pa (Some pi) (Some pj)) (ta ++ LB :: (ti ++ Colon :: tj) ++ [RB]).
Proof.
  intros A1 A2 A3 ts1 q rest Q. rewrite <- app_assoc. apply A1. cbn [app]. rewrite <- ?app_assoc. cbn [app]. rewrite <- ?app_assoc. cbn [app].
  pose proof (A2 (Colon :: tj ++ RB :: ts1) Logic.I) as R. cbn [goal_of] in R. pose proof (A3 ts1) as R2.
  exact (r_slice pa _ pi _ pj ts1 q rest (starts_expr Colon _ _ _ R) R (starts_expr RB _ _ _ R2) R2 Q).
Qed.
Lemma lexes_colon s1 t1 s2 t2 : lexes s1 t1 -> lexes s2 t2 -> lexes (s1 ++ ":" ++ s2) (t1 ++ Colon :: t2).
Proof. intros A B. apply lexes_cat; [exact A|apply (lexes_op ":" _ _ eq_refl), B|reflexivity|discriminate]. Qed.
Lemma slice_good k t f a i j : k = KCall \/ k = KTargetCall -> smem f f_slice = true -> good a -> level a = 8 -> good i -> good j ->
  good (Node k t [Atom (PStr f); a; i; j]).
Proof.
  intros K Ff Ga La Gi Gj. destruct (good_prim a Ga La) as [s1 [t1 [p1 [P1 [S1 [X1 [A1 M1]]]]]]].
  destruct (good_at 0 i Gi (Nat.le_0_l _)) as [s2 [t2 [P2 [S2 [X2 [p2 [A2 M2]]]]]]].
  destruct (good_at 0 j Gj (Nat.le_0_l _)) as [s3 [t3 [P3 [S3 [X3 [p3 [A3 M3]]]]]]].
  apply (lib_good k t f [a; i; j] (s1 ++ "[" ++ s2 ++ ":" ++ s3 ++ "]") (t1 ++ LB :: (t2 ++ Colon :: t3) ++ [RB]) (PSlice p1 (Some p2) (Some p3)) [p1; p2; p3] K).
  - fcases Ff; reflexivity.
  - exists [s1; s2; s3]. cbn [mapR]. rewrite P1, P2, P3. split; [reflexivity|]. fcases Ff; reflexivity.
  - apply starts_app, S1.
  - replace (s1 ++ "[" ++ s2 ++ ":" ++ s3 ++ "]")%string with (s1 ++ "[" ++ (s2 ++ ":" ++ s3) ++ "]")%string by strs. apply lexes_br; [exact X1|].
    apply lexes_colon; assumption.
  - apply slice_prim; [exact A1|exact A2|]. intros rest. apply (A3 (RB :: rest)). exact Logic.I.
  - constructor; [exact M1|constructor; [exact M2|constructor; [exact M3|constructor]]].
  - intros C r vs v Rl F R.
    assert (R' : exists l i j, vs = [VList l; VInt i; VInt j] /\ (0 <= i)%Z /\ (0 <= j)%Z /\ v = VList (firstn (Z.to_nat j - Z.to_nat i) (skipn (Z.to_nat i) l)))
      by (fcases Ff; exact R).
    destruct R' as [l [x [y [-> [Hx [Hy ->]]]]]]. inversion F as [|? ? ? ? V1 F1]; subst. inversion F1 as [|? ? ? ? V2 F2]; subst. inversion F2 as [|? ? ? ? V3 F3]; subst.
    cbn [value]. rewrite V1, V2, V3. cbn [seq num option_map reseq]. rewrite slice_nat by assumption. reflexivity.
Qed.
Lemma slice_len_good k t f a i j : k = KCall \/ k = KTargetCall -> smem f f_slice_len = true -> good a -> level a = 8 -> good i -> 5 <= level i -> good j -> 6 <= level j ->
  good (Node k t [Atom (PStr f); a; i; j]).
Proof.
  intros K Ff Ga La Gi Li Gj Lj. destruct (good_prim a Ga La) as [s1 [t1 [p1 [P1 [S1 [X1 [A1 M1]]]]]]].
  pose proof Gi as Gi'. destruct Gi' as [s2 [t2 [P2 [S2 [X2 [[p2 [A2 M2]] [Ch _]]]]]]].
  destruct (chain_opens KAdd i t2 (or_introl eq_refl)) as [p2' [M2' A2']]; [apply Ch; [unfold joins; cbn; tauto|exact Li]|].
  apply (at_lower 0) in A2; [|lia|apply level_le].
  destruct (good_at 6 j Gj Lj) as [s3 [t3 [P3 [S3 [X3 [p3 [A3 M3]]]]]]].
  assert (MM : forall I C r v w, python_like I C -> env_ok r -> eqs_ok I r i -> eqs_ok I r j -> eval I r i = Some (VInt v) -> eval I r j = Some (VInt w) ->
    value C r (PBin OAdd p2' p3) = Some (VInt (v + w))).
  { intros I C r v w PL EO Qi Qj Ei Ej. cbn [value]. rewrite (M2' I C r _ PL EO Qi Ei), (M3 I C r _ PL EO Qj Ej). reflexivity. }
  apply (prim_good _ (s1 ++ "[" ++ s2 ++ ":" ++ s2 ++ "+" ++ s3 ++ "]") (t1 ++ LB :: (t2 ++ Colon :: (t2 ++ Plus :: t3)) ++ [RB])
           (PSlice p1 (Some p2) (Some (PBin OAdd p2' p3)))).
  - rewrite (call_print k t f [a; i; j] [s1; s2; s3] K); [fcases Ff; reflexivity|]. cbn [mapR]. rewrite P1, P2, P3. reflexivity.
  - apply starts_app, S1.
  - replace (s1 ++ "[" ++ s2 ++ ":" ++ s2 ++ "+" ++ s3 ++ "]")%string with (s1 ++ "[" ++ (s2 ++ ":" ++ (s2 ++ "+" ++ s3)) ++ "]")%string by strs. apply lexes_br; [exact X1|].
    apply lexes_colon; [exact X2|]. apply lexes_cat; [exact X2|apply (lexes_op "+" _ _ eq_refl), X3|reflexivity|discriminate].
  - destruct K; subst k; reflexivity.
  - apply slice_prim; [exact A1|exact A2|]. intros rest. apply (lift 0 5); [lia|lia| |exact Logic.I]. cbn [goal_of]. rewrite <- app_assoc. cbn [app].
    apply (A2' (Plus :: t3 ++ RB :: rest)); [cbn; lia|]. cbn [jT]. apply (r_sumT Plus OAdd _ _ p3 (RB :: rest)); [reflexivity|apply (A3 (RB :: rest)); exact Logic.I|].
    apply sumT_nil. exact Logic.I.
  - intros I C r v PL EO Q E. apply eqs_args in Q. inversion Q as [|? ? Q0 Q']; subst. inversion Q' as [|? ? Qa Q'']; subst. inversion Q'' as [|? ? Qi Q3]; subst. inversion Q3 as [|? ? Qj Q4]; subst.
    destruct (call_eval I r k t f [a; i; j] v K E) as [vs [Ev Ec]].
    assert (R : lib_result f vs v) by (apply (pl_lib _ _ PL f vs v); [fcases Ff; reflexivity|exact Ec]).
    assert (R' : exists l i n, vs = [VList l; VInt i; VInt n] /\ (0 <= i)%Z /\ (0 <= n)%Z /\ v = VList (firstn (Z.to_nat n) (skipn (Z.to_nat i) l)))
      by (fcases Ff; exact R).
    destruct R' as [l [x [y [-> [Hx [Hy ->]]]]]]. cbn [mapO] in Ev.
    destruct (eval I r a) as [va|] eqn:Ea; [|discriminate Ev]. destruct (eval I r i) as [vi|] eqn:Ei; [|discriminate Ev]. destruct (eval I r j) as [vj|] eqn:Ej; [|discriminate Ev].
    injection Ev as -> -> ->. cbn [value]. rewrite (M1 I C r _ PL EO Qa Ea), (M2 I C r _ PL EO Qi Ei).
    pose proof (MM I C r x y PL EO Qi Qj Ei Ej) as W. cbn [value] in W. rewrite W. cbn [num option_map seq reseq].
    rewrite slice_nat by lia. do 3 f_equal. lia.
Qed.
(** ** all expressions *)
Lemma ands a b : a && b = true -> a = true /\ b = true.
Proof. apply andb_true_iff. Qed.
Lemma call_good k t f rest : k = KCall \/ k = KTargetCall -> call_clear fn f rest = true -> Forall good rest -> good (Node k t (Atom (PStr f) :: rest)).
Proof.
  intros K Cc G. unfold call_clear in Cc.
  Local Ltac ar Cc G := repeat (apply ands in Cc; let H := fresh "L" in destruct Cc as [Cc H]); apply Nat.eqb_eq in Cc;
    repeat match goal with H : Forall good ?l |- _ => is_var l; destruct l; cbn [List.length] in Cc; try discriminate Cc; try (inversion H; subst; clear H) end;
    cbn [nth_error] in *; repeat match goal with H : Nat.leb _ _ = true |- _ => apply Nat.leb_le in H end.
  destruct (smem f f_len) eqn:F1; [ar Cc G; apply len_good; assumption|].
  destruct (smem f (f_get ++ f_tail ++ f_take)) eqn:F2.
  { ar Cc G. assert (L8 : level e = 8) by (pose proof (level_le e); lia).
    destruct (smem f f_get) eqn:F3; [apply get_good; assumption|]. destruct (smem f f_tail) eqn:F4; [apply tail_good; assumption|].
    apply take_good; try assumption. unfold smem in *. rewrite !existsb_app in F2. rewrite F3, F4 in F2. exact F2. }
  destruct (smem f f_prepend) eqn:F3; [ar Cc G; apply prepend_good; assumption|].
  destruct (smem f f_append) eqn:F4; [ar Cc G; apply append_good; assumption|].
  destruct (smem f f_empty) eqn:F5; [ar Cc G; apply empty_good; assumption|].
  destruct (smem f f_slice) eqn:F6; [ar Cc G; apply slice_good; try assumption; pose proof (level_le e); lia|].
  destruct (smem f f_slice_len) eqn:F7; [ar Cc G; apply slice_len_good; try assumption; pose proof (level_le e); lia|].
  apply ands in Cc. destruct Cc as [Cc Nl]. apply ands in Cc. destruct Cc as [Ff N].
  apply fun_good; try assumption; [|intros ->; discriminate Nl].
  unfold notations, smem in *. rewrite !existsb_app in *. rewrite F1, F3, F4, F5, F6, F7.
  apply orb_false_iff in F2. destruct F2 as [-> F2]. apply orb_false_iff in F2. destruct F2 as [-> ->]. reflexivity.
Qed.
Lemma all_good args n : Forall (fun a => clear fn a = true -> good a) args -> forallb (fun a => clear fn a && Nat.leb n (level a)) args = true ->
  Forall (fun a => good a /\ n <= level a) args.
Proof.
  intros F H. rewrite forallb_forall in H. apply Forall_forall. intros a Ia. specialize (H a Ia). apply ands in H. destruct H as [H1 H2].
  rewrite Forall_forall in F. split; [apply F; assumption|apply Nat.leb_le, H2].
Qed.
Theorem clear_good : forall e, clear fn e = true -> good e.
Proof.
  induction e as [a|k t args IH] using expr_ind'; intros Cl; [discriminate Cl|].
  assert (J : In k joins -> args <> [] -> forallb (fun a => clear fn a && Nat.leb (jlev k) (level a)) args = true -> good (Node k t args)).
  { intros Jk N H. apply join_good; [exact Jk|exact N|apply all_good; assumption]. }
  assert (B : forall a b, args = [a; b] -> clear fn a = true -> clear fn b = true -> good a /\ good b).
  { intros a b -> Ca Cb. inversion IH as [|? ? Ha H']; subst. inversion H' as [|? ? Hb ?]; subst. auto. }
  assert (D : forall args2, forallb (clear fn) args2 = true -> (forall a, In a args2 -> In a args) -> Forall good args2).
  { intros l H In2. apply Forall_forall. intros a Ia. rewrite forallb_forall in H. rewrite Forall_forall in IH. apply IH; auto. }
  assert (Cmp : In k cmps -> match args with [a; b] => clear fn a && clear fn b && Nat.leb 5 (level a) && Nat.leb 5 (level b) | _ => false end = true -> good (Node k t args)).
  { intros Kc H. destruct args as [|a [|b []]]; try discriminate H. apply ands in H. destruct H as [H Lb]. apply ands in H. destruct H as [H La]. apply ands in H. destruct H as [Ca Cb].
    destruct (B a b eq_refl Ca Cb). apply cmp_good; try assumption; apply Nat.leb_le; assumption. }
  destruct k; cbn [clear] in Cl; try discriminate Cl;
    try (apply Cmp; [cbn; tauto|exact Cl]);
    try (apply ands in Cl; destruct Cl as [N Cl]; apply J; [unfold joins; cbn; tauto|destruct args; [discriminate N|discriminate]|exact Cl]).
  (* the remaining classes *)
  all: try (destruct args as [|[[]|] rest]; try discriminate Cl; apply ands in Cl; destruct Cl as [Cr Cc]; apply call_good; [tauto|exact Cc|];
            apply D; [exact Cr|intros ? ?; right; assumption]).
  - destruct args as [|[[]|] []]; try discriminate Cl. apply ands in Cl. apply var_good; tauto.
  - destruct args as [|[[]|] []]; try discriminate Cl. apply ands in Cl. apply var_good; tauto.
  - destruct t; try discriminate Cl; destruct args as [|[[]|] []]; try discriminate Cl; [apply int_good|apply bool_good].
  - destruct args as [|a [|b []]]; try discriminate Cl. apply ands in Cl. destruct Cl as [Cl Lb]. apply ands in Cl. destruct Cl as [Cl La].
    apply ands in Cl. destruct Cl as [Ca Cb]. destruct (B a b eq_refl Ca Cb). apply Nat.leb_le in La, Lb.
    apply (paren_good KSub t a b KAdd Minus OSub " - "); try assumption; try reflexivity; try (cbn; tauto); [sept| |].
    + intros; eapply r_sumT; eauto; reflexivity.
    + intros I C x y v PL E. destruct x, y; try discriminate E. exact E.
  - destruct args as [|a [|b []]]; try discriminate Cl. apply ands in Cl. destruct Cl as [Cl Lb]. apply ands in Cl. destruct Cl as [Cl La].
    apply ands in Cl. destruct Cl as [Ca Cb]. destruct (B a b eq_refl Ca Cb). apply Nat.leb_le in La, Lb.
    apply (paren_good KDiv t a b KMul SSlash OFloor " // "); try assumption; try reflexivity; try (cbn; tauto); [sept| |].
    + intros; eapply r_termT; eauto; reflexivity.
    + intros I C x y v PL E. destruct x, y; try discriminate E. cbn in E. destruct (i_div I z z0) as [q|] eqn:Q; [|discriminate E]. injection E as <-.
      destruct (pl_div _ _ PL _ _ _ Q) as [N ->]. cbn. apply Z.eqb_neq in N. rewrite N. reflexivity.
  - destruct args as [|a [|b []]]; try discriminate Cl. apply ands in Cl. destruct Cl as [Cl Lb]. apply ands in Cl. destruct Cl as [Cl La].
    apply ands in Cl. destruct Cl as [Ca Cb]. destruct (B a b eq_refl Ca Cb). apply Nat.leb_le in La, Lb.
    apply (paren_good KMod t a b KMul Percent OMod " % "); try assumption; try reflexivity; try (cbn; tauto); [sept| |].
    + intros; eapply r_termT; eauto; reflexivity.
    + intros I C x y v PL E. destruct x, y; try discriminate E. cbn in E. destruct (i_mod I z z0) as [q|] eqn:Q; [|discriminate E]. injection E as <-.
      destruct (pl_mod _ _ PL _ _ _ Q) as [N ->]. cbn. apply Z.eqb_neq in N. rewrite N. reflexivity.
  - destruct args as [|a []]; try discriminate Cl. apply ands in Cl. destruct Cl as [Ca La]. inversion IH as [|? ? Ha _]; subst. apply Nat.leb_le in La. apply not_good; auto.
  - destruct args as [|c [|a [|b []]]]; try discriminate Cl. pose proof (all_good _ _ IH Cl) as G.
    inversion G as [|? ? [G1 _] G']; subst. inversion G' as [|? ? [G2 _] G'']; subst. inversion G'' as [|? ? [G3 _] _]; subst. apply ite_good; assumption.
  - destruct args as [|f rest]; try discriminate Cl. apply ands in Cl. destruct Cl as [Cl Cr]. apply ands in Cl. destruct Cl as [Cf Lf]. apply Nat.leb_le in Lf.
    inversion IH as [|? ? Hf _]; subst. apply callvalue_good; [auto|pose proof (level_le f); lia|]. apply D; [exact Cr|intros ? ?; right; assumption].
  - apply ands in Cl. destruct Cl as [Cl N]. apply tuple_good.
    + intros E. rewrite E in N. discriminate N.
    + pose proof (all_good _ _ IH Cl) as G. revert G. apply Forall_impl. tauto.
Qed.
End Main.
