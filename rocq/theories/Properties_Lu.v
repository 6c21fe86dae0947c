(** C61: the code blocks taken from an answer of the language model, the replacement of
    [ite] by the conditional expression of Python, and the arguments of loop invariants. *)

From Coq Require Import String Ascii List Bool Arith Lia Permutation Sorted.
From Verif Require Import Ast LuModel LuProofs.
Import ListNotations.
Local Open Scope string_scope.

(** ** Specification *)

(** in [g] followed by [p] there is no [p] before the end *)
Definition only_end (p g : string) : Prop := forall q r, g ++ p = q ++ p ++ r -> r = "".
(** [p] is nowhere in [s] *)
Definition nowhere (p s : string) : Prop := forall q r, s <> q ++ p ++ r.
(** the character [c] is not in [s] *)
Definition without (c : ascii) (s : string) : Prop := has c s = false.

(** An answer: text, code block with a language name, text, code block, …, text *)
Record block : Type := Block { prose : string; lang : string; code : string }.
Fixpoint answer (l : list block) (tail : string) : string :=
  match l with
  | [] => tail
  | b :: l' => prose b ++ "```" ++ lang b ++ code b ++ "```" ++ answer l' tail
  end.
Definition newline : ascii := "010"%char.
Definition good_block (b : block) : Prop :=
  only_end "```" (prose b) /\ only_end "```" (code b) /\ (exists c, code b = String newline c) /\
  In (lang b) [""; "Python"; "python"; "assembly"; "cpp"; "c"].

(** ** Code blocks *)

Theorem C61_total : forall s, (exists l, extract_all_python_functions s = Some l) /\ (exists u, replace_ite s = Some u).
Proof.
  intros s. split.
  - apply (extract_fuel (S (String.length s)) (S (String.length s)) s); lia.
  - apply (replace_fuel (S (String.length s)) (S (String.length s)) s); lia.
Qed.
Print Assumptions C61_total.
Example C61_total_case : extract_all_python_functions "a ``` b" = Some [] /\ replace_ite "ite(x" = Some "ite(x".
Proof. split; reflexivity. Qed.

(** Exactly the code of the blocks, in their order.  Missing for the whole property: the
    language name [c++] (below). *)
Theorem C61_extract_partial : forall l tail, Forall good_block l -> nowhere "```" tail ->
  extract_all_python_functions (answer l tail) = Some (map code l).
Proof.
  intros l tail F T. induction F as [|b l (P & C & (c & E) & L) F IH]; cbn [answer map]; [now apply extract_none|].
  change "```" with fence. fold extract in *. rewrite extract_prose by exact P.
  rewrite (extract_block _ (code b) (answer l tail)); [now rewrite IH|].
  replace (drop_tag tags (lang b ++ code b ++ fence ++ answer l tail)) with (code b ++ fence ++ answer l tail).
  - now apply until_first.
  - rewrite E. cbn in L. destruct L as [<-|[<-|[<-|[<-|[<-|[<-|[]]]]]]]; reflexivity.
Qed.
Print Assumptions C61_extract_partial.

Lemma only_end_none p g : p <> "" -> only_end p g -> nowhere p g.
Proof.
  intros NE H q r ->. assert (E : (q ++ p ++ r) ++ p = q ++ p ++ (r ++ p)) by now rewrite !sapp_assoc.
  apply H in E. destruct r, p; discriminate || congruence.
Qed.
Lemma only_end_nil p : only_end p "".
Proof. intros q r E. apply (f_equal String.length) in E. rewrite !slen_app in E. destruct r; [reflexivity|]. cbn in E. lia. Qed.
(** a text without backquotes has no fence before its end *)
Lemma no_quote g : without "`" g -> only_end "```" g.
Proof.
  unfold without. induction g as [|d g IH]; intros H q r E.
  - exact (only_end_nil _ q r E).
  - cbn [has] in H. apply orb_false_iff in H as [H1 H2]. destruct q as [|x q]; cbn in E.
    + injection E as E _. subst d. discriminate H1.
    + injection E as _ E. now apply (IH H2 q r).
Qed.
Definition nl (s : string) : string := String newline s.
Example C61_extract_case :
  let l := [Block "Here is a ` and a solution: " "python" (nl "def f(x):" ++ nl "    return x" ++ nl "");
            Block (nl "or") "" (nl "c + 1" ++ nl "")] in
  Forall good_block l /\ nowhere "```" " Done." /\
  extract_all_python_functions (answer l " Done.") =
    Some [nl "def f(x):" ++ nl "    return x" ++ nl ""; nl "c + 1" ++ nl ""].
Proof.
  assert (T : forall g, without "`" g -> nowhere "```" g) by (intros g H; apply only_end_none; [discriminate | now apply no_quote]).
  cbv zeta. split; [|split; [now apply T | reflexivity]].
  constructor; [|constructor; [|constructor]]; (split; [|split; [|split]]); try (apply no_quote; reflexivity); try (eexists; reflexivity); try (cbn; tauto).
  cbn. intros q r E. do 10 (destruct q as [|? q]; [discriminate E | cbn in E; injection E as _ E]).
  destruct q as [|? q]; [discriminate E | cbn in E; injection E as _ E].
  exact (no_quote " and a solution: " eq_refl q r E).
Qed.

(** The language name c++ is not removed: the alternative [c] of the pattern comes first.
    The name python3 and every other one that only begins with a known name leave a rest. *)
Theorem C61_lang_refuted : forall p c tail, only_end "```" p -> only_end "```" ("++" ++ c) -> nowhere "```" tail ->
  extract_all_python_functions (answer [Block p "c++" c] tail) = Some ["++" ++ c].
Proof.
  intros p c tail P C T. cbn [answer prose lang code]. change "```" with fence. fold extract. rewrite extract_prose by exact P.
  rewrite (extract_block _ ("++" ++ c) tail); [now rewrite extract_none|].
  change (drop_tag tags ("c++" ++ c ++ fence ++ tail)) with (("++" ++ c) ++ fence ++ tail). now apply until_first.
Qed.
Print Assumptions C61_lang_refuted.
Example C61_lang_case :
  extract_all_python_functions (answer [Block "See" "c++" (nl "int f();" ++ nl "")] "") = Some ["++" ++ nl "int f();" ++ nl ""].
Proof. apply C61_lang_refuted; [now apply no_quote | now apply no_quote | ]. intros q r E. destruct q; discriminate. Qed.

(** ** [ite] *)

(** A call of [ite] whose condition and first branch have no comma and whose second branch
    has no closing parenthesis becomes the conditional expression; the text before stays,
    the text after is treated in the same way. *)
Theorem C61_ite_partial : forall pre c a b post,
  only_end "ite(" pre -> c <> "" -> a <> "" -> b <> "" -> without "," c -> without "," a -> without ")" b ->
  exists u, replace_ite post = Some u /\
  replace_ite (pre ++ "ite(" ++ c ++ "," ++ a ++ "," ++ b ++ ")" ++ post) =
    Some (pre ++ strip a ++ " if " ++ strip c ++ " else " ++ strip b ++ u).
Proof.
  intros pre c a b post P C A B HC HA HB. destruct (C61_total post) as [_ (u & U)]. exists u. split; [exact U|].
  rewrite replace_pre by exact P.
  rewrite (replace_match _ (strip a ++ " if " ++ strip c ++ " else " ++ strip b) post).
  - rewrite U. rewrite !sapp_assoc. reflexivity.
  - unfold ite_match. rewrite after_app. change ("," ++ a ++ "," ++ b ++ ")" ++ post) with (String "," (a ++ "," ++ b ++ ")" ++ post)).
    rewrite run_is by assumption. change ("," ++ b ++ ")" ++ post) with (String "," (b ++ ")" ++ post)).
    rewrite run_is by assumption. change (")" ++ post) with (String ")" post). now rewrite run_is by assumption.
Qed.
Print Assumptions C61_ite_partial.
Example C61_ite_case :
  replace_ite "return ite(x > 1, a[0], b) + ite(y, 1, 2)" = Some "return a[0] if x > 1 else b + 1 if y else 2".
Proof. reflexivity. Qed.

(** [strip] takes off white space at both ends and nothing else. *)
Definition white : list ascii :=
  ["009"; "010"; "011"; "012"; "013"; "028"; "029"; "030"; "031"; " "]%char.
Definition all_white (s : string) : Prop := forall a c b, s = a ++ String c b -> In c white.
Theorem C61_strip : forall s, exists a b, s = a ++ strip s ++ b /\ all_white a /\ all_white b /\
  (forall c t, strip s = String c t -> ~ In c white) /\ (forall t c, strip s = t ++ String c "" -> ~ In c white).
Proof.
  intros s. destruct (lstrip_spec s) as (a & E & W & F). destruct (rstrip_spec (lstrip s)) as (b & E' & W' & F' & K).
  exists a, b. split; [|split; [|split; [|split]]].
  - unfold strip. rewrite <- E'. exact E.
  - intros x c y Q. apply white_is_space. exact (W x c y Q).
  - intros x c y Q. apply white_is_space. exact (W' x c y Q).
  - intros c t Q I. apply white_is_space in I. unfold strip in Q. destruct (K c t Q) as (t' & Q'). now rewrite (F c t' Q') in I.
  - intros t c Q I. apply white_is_space in I. unfold strip in Q. now rewrite (F' t c Q) in I.
Qed.
Print Assumptions C61_strip.
Example C61_strip_case : strip (" a + b" ++ nl " ") = "a + b" /\ strip (nl "  ") = "".
Proof. split; reflexivity. Qed.

(** a text without such a call is unchanged *)
Theorem C61_ite_unchanged : forall s, nowhere "ite(" s -> replace_ite s = Some s.
Proof. exact replace_none. Qed.
Print Assumptions C61_ite_unchanged.
Example C61_ite_unchanged_case : nowhere "ite(" "ite_int(a, b)" /\ replace_ite "ite_int(a, b)" = Some "ite_int(a, b)".
Proof.
  split; [|reflexivity]. intros q r E. do 14 (destruct q as [|? q]; [discriminate E | cbn in E; try discriminate E; injection E as _ E]).
Qed.

(** A first branch with a comma is taken apart in the middle: the call [f(x, y)] becomes
    a call of [f] with the conditional expression and the second branch. *)
Theorem C61_ite_comma_refuted : forall c f x y b,
  c <> "" -> without "," c -> without "," f -> without "," x -> y <> "" -> without ")" y -> nowhere "ite(" (", " ++ b ++ ")") ->
  replace_ite ("ite(" ++ c ++ "," ++ (f ++ "(" ++ x) ++ "," ++ y ++ ")" ++ ", " ++ b ++ ")") =
    Some (strip (f ++ "(" ++ x) ++ " if " ++ strip c ++ " else " ++ strip y ++ ", " ++ b ++ ")").
Proof.
  intros c f x y b C HC HF HX Y HY N.
  destruct (C61_ite_partial "" c (f ++ "(" ++ x) y (", " ++ b ++ ")")) as (u & U & R); try assumption.
  - apply only_end_nil.
  - destruct f; discriminate.
  - unfold without in *. rewrite !has_app, HF, HX. reflexivity.
  - rewrite C61_ite_unchanged in U by exact N. injection U as <-. exact R.
Qed.
Print Assumptions C61_ite_comma_refuted.
Example C61_ite_comma_case :
  replace_ite "ite(x > y, max(x, 1), y)" = Some "max(x if x > y else 1, y)".
Proof. reflexivity. Qed.

(** A second branch with a call ends at the parenthesis of the call: what follows it in
    the branch goes inside the call. *)
Theorem C61_ite_paren_refuted : forall c a g y e,
  c <> "" -> a <> "" -> without "," c -> without "," a -> without ")" g -> without ")" y -> nowhere "ite(" (e ++ ")") ->
  replace_ite ("ite(" ++ c ++ "," ++ a ++ "," ++ (g ++ "(" ++ y) ++ ")" ++ e ++ ")") =
    Some (strip a ++ " if " ++ strip c ++ " else " ++ strip (g ++ "(" ++ y) ++ e ++ ")").
Proof.
  intros c a g y e C A HC HA HG HY N.
  destruct (C61_ite_partial "" c a (g ++ "(" ++ y) (e ++ ")")) as (u & U & R); try assumption.
  - apply only_end_nil.
  - destruct g; discriminate.
  - unfold without in *. rewrite !has_app, HG, HY. reflexivity.
  - rewrite C61_ite_unchanged in U by exact N. injection U as <-. exact R.
Qed.
Print Assumptions C61_ite_paren_refuted.
Example C61_ite_paren_case : replace_ite "ite(p, a, abs(y) + 1)" = Some "a if p else abs(y + 1)".
Proof. reflexivity. Qed.

(** ** Arguments of invariants *)

(** [v] is the first of [l] with its name *)
Definition first_of (l : list var) (v : var) : Prop := exists a b, l = (a ++ v :: b)%list /\ ~ In (fst v) (map fst a).

(** Whatever order the set is read in, the arguments of the invariant are sorted by name,
    without repetition, and they are the variables read, the variables modified and the
    loop variable, each as it occurs first. *)
Theorem C61_args : forall order read modified loop_var, (forall l, Permutation (order l) l) ->
  let args := get_inv_args order read modified loop_var in
  let all := (read ++ modified ++ [loop_var])%list in
  StronglySorted (fun v w => String.compare (fst v) (fst w) = Lt) args /\
  (forall v, In v args <-> first_of all v) /\
  (forall x, In x (map fst args) <-> In x (map fst all)).
Proof.
  intros order read modified lv O args all.
  destruct (py_set_spec all [] (NoDup_nil _)) as [N H].
  assert (I : forall v, In v args <-> first_of all v).
  { intros v. unfold args, get_inv_args. fold all. split.
    - intros Q. apply (Permutation_in _ (sorted_perm _)) in Q. apply (Permutation_in _ (O _)) in Q. apply H in Q as [[]|[_ Q]]. exact Q.
    - intros Q. apply (Permutation_in _ (Permutation_sym (sorted_perm _))). apply (Permutation_in _ (Permutation_sym (O _))). apply H. right. split; [intros []|exact Q]. }
  split; [|split; [exact I|]].
  - apply sorted_sorted. apply (Permutation_NoDup (l := map fst (py_set [] all))); [|exact N]. apply Permutation_map. symmetry. apply O.
  - intros x. rewrite !in_map_iff. split.
    + intros (v & <- & Q). apply I in Q as (a & b & E & _). exists v. split; [reflexivity|]. rewrite E, in_app_iff. right. now left.
    + intros (v & <- & Q).
      assert (F : forall l (v : var), In v l -> exists w, fst w = fst v /\ first_of l w).
      { clear. induction l as [|w l IH]; intros v []; [subst|].
        - exists v. split; [reflexivity|]. exists [], l. split; [reflexivity | intros []].
        - destruct (String.eqb_spec (fst w) (fst v)) as [E|E].
          + exists w. split; [exact E|]. exists [], l. split; [reflexivity | intros []].
          + destruct (IH v H) as (u & U & a & b & -> & Z). exists u. split; [exact U|]. exists (w :: a), b. split; [reflexivity|].
            cbn. intros [Y|Y]; [congruence | now apply Z]. }
      destruct (F all v Q) as (w & W & FW). exists w. split; [exact W | now apply I].
Qed.
Print Assumptions C61_args.
Definition X := ("x", TInt). Definition A := ("arr", TList TInt). Definition J := ("i", TInt).
Example C61_args_case : get_inv_args (@rev var) [X; A] [X; J] J = [A; J; X] /\ (forall l : list var, Permutation (rev l) l).
Proof. split; [reflexivity|]. intros l. symmetry. apply Permutation_rev. Qed.

(** If a name has one type, the arguments depend on nothing but the set of the variables:
    neither on the order of the set nor on the list a variable is in. *)
Theorem C61_args_set : forall order order' r m v r' m' v',
  (forall l, Permutation (order l) l) -> (forall l, Permutation (order' l) l) ->
  (forall a b : var, In a (r ++ m ++ [v])%list -> In b (r ++ m ++ [v])%list -> fst a = fst b -> a = b) ->
  (forall a, In a (r ++ m ++ [v])%list <-> In a (r' ++ m' ++ [v'])%list) ->
  get_inv_args order r m v = get_inv_args order' r' m' v'.
Proof.
  intros order order' r m v r' m' v' O O' T E.
  destruct (C61_args order r m v O) as (S1 & I1 & N1). destruct (C61_args order' r' m' v' O') as (S2 & I2 & N2).
  cbv zeta in *. apply sorted_unique; [exact S1 | exact S2 |].
  assert (ND : forall l, StronglySorted vlt l -> NoDup l).
  { induction 1 as [|w l H IH F]; constructor; [|exact IH]. intros Q. rewrite Forall_forall in F. exact (slt_irrefl _ (F _ Q)). }
  apply NoDup_Permutation; [now apply ND | now apply ND |].
  assert (In_all : forall l w, first_of l w -> In w l) by (intros l w (a & b & -> & _); rewrite in_app_iff; right; now left).
  intros w. split; intros Q.
  - assert (QA := In_all _ _ (proj1 (I1 w) Q)). assert (QN : In (fst w) (map fst (get_inv_args order' r' m' v'))) by (apply N2, in_map, E, QA).
    apply in_map_iff in QN as (u & U & QU). replace w with u; [exact QU|]. apply T; [apply E, In_all, I2, QU | exact QA | exact U].
  - assert (QA := In_all _ _ (proj1 (I2 w) Q)). assert (QN : In (fst w) (map fst (get_inv_args order r m v))) by (apply N1, in_map, E, QA).
    apply in_map_iff in QN as (u & U & QU). replace w with u; [exact QU|]. apply T; [apply In_all, I1, QU | apply E, QA | exact U].
Qed.
Print Assumptions C61_args_set.
Example C61_args_set_case : get_inv_args (@rev var) [X; A] [X; J] J = get_inv_args (fun l => l) [J] [A] X.
Proof.
  apply C61_args_set.
  - intros l. symmetry. apply Permutation_rev.
  - reflexivity.
  - intros a b P Q E. cbn in P, Q. decompose [or] P; decompose [or] Q; subst; try contradiction; try reflexivity; discriminate.
  - intros a. cbn. tauto.
Qed.

(** Two variables of one name and two types are one argument. *)
Theorem C61_args_type_refuted : exists order r m v, (forall l : list var, Permutation (order l) l) /\
  In ("x", TBool) (r ++ m ++ [v])%list /\ ~ In ("x", TBool) (get_inv_args order r m v).
Proof.
  exists (fun l => l), [X], [("x", TBool)], J. split; [reflexivity|]. split; [cbn; tauto|]. cbn. intros [H|[H|[]]]; discriminate.
Qed.
Print Assumptions C61_args_type_refuted.

(** Two loops: the variables the inner loop alone uses are no arguments of the outer
    invariant. *)
Theorem C61_args_double : forall order ro ri mo mi vo vi x, (forall l, Permutation (order l) l) ->
  let (outer, inner) := get_inv_args_double order ro ri mo mi vo vi in
  (In x (map fst outer) <-> In x (map fst (ro ++ mo ++ [vo])%list)) /\
  (In x (map fst inner) <-> In x (map fst (ri ++ mi ++ [vi])%list)).
Proof. intros order ro ri mo mi vo vi x O. cbn. split; apply C61_args; exact O. Qed.
Print Assumptions C61_args_double.
Example C61_args_double_case :
  get_inv_args_double (fun l => l) [A] [A; X] [X] [X] J ("j", TInt) = ([A; J; X], [A; ("j", TInt); X]).
Proof. reflexivity. Qed.

(** Renaming keeps number, order and types; a name not in the dictionary stays. *)
Theorem C61_rename : forall args d,
  Forall2 (fun v w => snd w = snd v /\
             ((exists y, In (fst v, y) d /\ fst w = y) \/ ((forall y, ~ In (fst v, y) d) /\ fst w = fst v)))
    args (replace_args args d).
Proof.
  intros args d. induction args as [|v args IH]; cbn; constructor; [|exact IH]. cbn. split; [reflexivity|].
  clear. induction d as [|[a b] d IH]; cbn; [right; split; [intros y []|reflexivity]|].
  destruct (String.eqb_spec a (fst v)) as [->|NE]; [left; exists b; auto|].
  destruct IH as [(y & I & ->)|[N ->]]; [left; exists y; auto|]. right. split; [|reflexivity].
  intros y [[= Q _]|Q]; [congruence | exact (N y Q)].
Qed.
Print Assumptions C61_rename.
Example C61_rename_case : replace_args [A; J; X] [("i", "row")] = [A; ("row", TInt); X].
Proof. reflexivity. Qed.

(** Renaming may give two arguments of one name. *)
Theorem C61_rename_refuted : exists args d, NoDup (map fst args) /\ ~ NoDup (map fst (replace_args args d)).
Proof.
  exists [J; X], [("i", "x")]. split.
  - repeat constructor; cbn; intuition discriminate.
  - cbn. intros H. inversion H; subst. cbn in *. tauto.
Qed.
Print Assumptions C61_rename_refuted.
