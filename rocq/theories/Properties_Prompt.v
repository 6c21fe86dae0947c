(** C62: in the prompt for invariants the return statements of the source program are
    replaced by the assertion, and nothing else is. *)

From Coq Require Import String Ascii List Bool Arith Lia.
From Verif Require Import LuModel LuProofs PromptModel.
Import ListNotations.
Local Open Scope string_scope.

(** ** Specification *)

(** letters, digits and the underscore *)
Definition letters : string := "0123456789ABCDEFGHIJKLMNOPQRSTUVWXYZ_abcdefghijklmnopqrstuvwxyz".
Definition word_char (c : ascii) : Prop := exists a b, letters = a ++ String c b.
(** [s] ends, begins with a character of a word *)
Definition ends_in_word (s : string) : Prop := exists t c, s = t ++ String c "" /\ word_char c.
Definition begins_with_word (s : string) : Prop := exists c t, s = String c t /\ word_char c.
Definition lacks (c : ascii) (s : string) : Prop := forall a b, s <> a ++ String c b.
Definition newline : ascii := "010"%char.

(** [return] is nowhere in [s] as a word followed in its line by a semicolon *)
Definition no_return (s : string) : Prop := forall q r, s = q ++ "return" ++ r ->
  ends_in_word q \/ begins_with_word r \/ (forall e t, r = e ++ ";" ++ t -> ~ lacks newline e).

(** A source program: text without a return statement, return statement, …, text.
    The pair [(p, e)] is the text [p] and the statement [return e;]. *)
Fixpoint source (l : list (string * string)) (tail : string) : string :=
  match l with [] => tail | (p, e) :: l' => p ++ "return" ++ e ++ ";" ++ source l' tail end.
Fixpoint asserted (code : string) (l : list (string * string)) (tail : string) : string :=
  match l with [] => tail | (p, e) :: l' => p ++ "assert " ++ code ++ ";" ++ asserted code l' tail end.
Definition good_part (pe : string * string) : Prop :=
  (forall q r, fst pe ++ "return" = q ++ "return" ++ r -> r = "") /\ ~ ends_in_word (fst pe) /\
  ~ begins_with_word (snd pe) /\ lacks ";" (snd pe) /\ lacks newline (snd pe).

(** ** Proofs *)

Lemma is_word_spec c : is_word c = true <-> word_char c.
Proof.
  split.
  - assert (D : has c letters = true -> word_char c).
    { unfold word_char. generalize letters. induction s as [|d s IH]; cbn; [discriminate|]. intros H. apply orb_true_iff in H as [H|H].
      - apply Ascii.eqb_eq in H. subst. exists "", s. reflexivity.
      - destruct (IH H) as (a & b & ->). exists (String d a), b. reflexivity. }
    intros H. apply D. clear D. destruct c as [[] [] [] [] [] [] [] []]; (discriminate H || reflexivity).
  - intros (a & b & E). assert (A : forall s, (forall x, has x s = true -> is_word x = true) -> s = a ++ String c b -> is_word c = true).
    { intros s H ->. apply H. rewrite has_app. cbn. rewrite Ascii.eqb_refl. now rewrite orb_true_r. }
    apply (A letters); [|exact E]. clear. intros x H. destruct x as [[] [] [] [] [] [] [] []]; (discriminate H || reflexivity).
Qed.
Lemma starts_spec s : starts_word s = true <-> begins_with_word s.
Proof.
  destruct s as [|c s]; cbn; [split; [discriminate | intros (? & ? & [=] & _)]|]. rewrite is_word_spec. split.
  - intros H. exists c, s. auto.
  - intros (d & t & [= -> ->] & H). exact H.
Qed.
Lemma lacks_has c s : lacks c s -> has c s = false.
Proof.
  induction s as [|d s IH]; intros H; [reflexivity|]. cbn. apply orb_false_iff. split.
  - destruct (Ascii.eqb_spec c d) as [->|]; [|reflexivity]. exfalso. exact (H "" s eq_refl).
  - apply IH. intros a b ->. exact (H (String d a) b eq_refl).
Qed.
Lemma one_line_spec s : one_line s = true <-> lacks newline s.
Proof.
  induction s as [|c s IH]; cbn.
  - split; [|reflexivity]. intros _ [|? a]; discriminate.
  - rewrite andb_true_iff, IH, negb_true_iff. split.
    + intros [N L] [|? a] b E; cbn in E; injection E as -> E; [now rewrite Ascii.eqb_refl in N | exact (L a b E)].
    + intros H. split; [|intros a b ->; exact (H (String c a) b eq_refl)].
      destruct (Ascii.eqb_spec c "010") as [->|]; [|reflexivity]. exfalso. exact (H "" s eq_refl).
Qed.
Lemma until_inv p : forall s g r, until p s = Some (g, r) -> s = g ++ p ++ r.
Proof.
  induction s as [|c s IH]; intros g r H; rewrite until_eq in H.
  - destruct (after p "") eqn:E; [|discriminate]. apply after_inv in E. now injection H as <- <-.
  - destruct (after p (String c s)) eqn:E; [apply after_inv in E; now injection H as <- <-|].
    destruct (until p s) as [[g' r']|] eqn:U; [|discriminate]. injection H as <- <-. cbn. f_equal. now apply IH.
Qed.

Lemma match_len prev s r : return_match prev s = Some r -> String.length r < String.length s.
Proof.
  unfold return_match. destruct prev; [discriminate|]. destruct (after "return" s) as [t|] eqn:A; [|discriminate]. apply after_inv in A.
  destruct (starts_word t); [discriminate|]. destruct (until ";" t) as [[e r']|] eqn:U; [|discriminate].
  destruct (one_line e); [|discriminate]. intros [= <-]. apply until_len in U. rewrite A, slen_app. cbn. lia.
Qed.
Lemma assert_fuel code : forall n m prev s, String.length s < n -> String.length s < m ->
  assert_from n code prev s = assert_from m code prev s /\ exists u, assert_from n code prev s = Some u.
Proof.
  induction n as [|n IH]; intros m prev s N M; [lia|]. destruct m as [|m]; [lia|]. cbn [assert_from].
  destruct (return_match prev s) as [r|] eqn:E.
  - apply match_len in E. destruct (IH m false r) as [Q (u & Q')]; [lia..|]. rewrite <- Q, Q'. eauto.
  - destruct s as [|c s]; [eauto|]. cbn in N, M. destruct (IH m (is_word c) s) as [Q (u & Q')]; [lia..|]. rewrite <- Q, Q'. eauto.
Qed.

(** the replacement from the middle of a text on *)
Definition run_from (code : string) (prev : bool) (s : string) : option string := assert_from (S (String.length s)) code prev s.
Lemma run_skip code prev c s : return_match prev (String c s) = None ->
  run_from code prev (String c s) = match run_from code (is_word c) s with Some u => Some (String c u) | None => None end.
Proof. intros H. unfold run_from. cbn [assert_from String.length]. now rewrite H. Qed.
Lemma run_match code prev s r : return_match prev s = Some r ->
  run_from code prev s = match run_from code false r with Some u => Some ("assert " ++ code ++ ";" ++ u) | None => None end.
Proof.
  intros H. unfold run_from. pose proof (match_len _ _ _ H). cbn [assert_from]. rewrite H.
  destruct (assert_fuel code (String.length s) (S (String.length r)) false r) as [E _]; [lia..|]. now rewrite E.
Qed.

(** whether the text before ends in a word *)
Fixpoint last_word (prev : bool) (s : string) : bool :=
  match s with EmptyString => prev | String c s' => last_word (is_word c) s' end.
Lemma last_word_ends s : last_word false s = true -> ends_in_word s.
Proof.
  assert (G : forall s prev, last_word prev s = true -> (s = "" /\ prev = true) \/ ends_in_word s).
  { clear. induction s as [|c s IH]; intros prev H; cbn in H; [auto|]. right. destruct (IH _ H) as [[-> W]|(t & d & -> & W)].
    - exists "", c. split; [reflexivity | now apply is_word_spec].
    - exists (String c t), d. auto. }
  intros H. destruct (G s false H) as [[_ [=]]|E]. exact E.
Qed.
Lemma run_pre code : forall p prev s, (forall q r, p ++ "return" = q ++ "return" ++ r -> r = "") ->
  run_from code prev (p ++ "return" ++ s) =
  match run_from code (last_word prev p) ("return" ++ s) with Some u => Some (p ++ u) | None => None end.
Proof.
  induction p as [|c p IH]; intros prev s H.
  - change ("" ++ "return" ++ s) with ("return" ++ s). cbn [last_word]. now destruct (run_from code prev ("return" ++ s)).
  - pose proof (first_after "return" c p s H) as A. change (String c p ++ "return" ++ s) with (String c (p ++ "return" ++ s)) in *.
    rewrite run_skip by (unfold return_match; rewrite A; now destruct prev). rewrite IH by exact (first_tail _ _ _ H).
    cbn [last_word]. now destruct (run_from code (last_word (is_word c) p) ("return" ++ s)).
Qed.
Lemma last_word_app p : forall prev c, last_word prev (p ++ String c "") = is_word c.
Proof. induction p; intros; cbn; auto. Qed.

(** a text without return statement is unchanged, wherever it stands *)
Lemma run_none code : forall s pre, no_return (pre ++ s) -> run_from code (last_word false pre) s = Some s.
Proof.
  induction s as [|c s IH]; intros pre H.
  - unfold run_from. cbn [assert_from String.length]. unfold return_match. cbn. now destruct (last_word false pre).
  - rewrite run_skip.
    + rewrite <- (last_word_app pre false c). rewrite IH; [reflexivity|]. rewrite sapp_assoc. exact H.
    + unfold return_match. destruct (last_word false pre) eqn:W; [reflexivity|].
      destruct (after "return" (String c s)) as [r|] eqn:A; [|reflexivity]. apply after_inv in A.
      destruct (H pre r) as [E|[E|E]]; [now rewrite A| | |].
      * exfalso. destruct E as (t & d & -> & D). rewrite last_word_app in W. apply is_word_spec in D. congruence.
      * apply starts_spec in E. now rewrite E.
      * destruct (starts_word r); [reflexivity|]. destruct (until ";" r) as [[e t]|] eqn:U; [|reflexivity]. apply until_inv in U.
        destruct (one_line e) eqn:L; [|reflexivity]. exfalso. apply one_line_spec in L. exact (E e t U L).
Qed.

(** ** Theorems *)

Theorem C62_total : forall code s, exists u, inv_code_with_assert code s = Some u.
Proof. intros code s. apply (assert_fuel code (S (String.length s)) (S (String.length s)) false s); lia. Qed.
Print Assumptions C62_total.

(** Every return statement is replaced, and nothing else.  Missing: a return statement on
    several lines (below). *)
Theorem C62_assert_partial : forall code l tail, Forall good_part l -> no_return tail ->
  inv_code_with_assert code (source l tail) = Some (asserted code l tail).
Proof.
  intros code l tail F T. change (run_from code false (source l tail) = Some (asserted code l tail)).
  induction F as [|[p e] l (P & W & B & S & L) F IH]; cbn [source asserted fst snd] in *.
  - exact (run_none code tail "" T).
  - rewrite run_pre by exact P. destruct (last_word false p) eqn:E; [now apply last_word_ends in E|].
    rewrite (run_match code false _ (source l tail)); [now rewrite IH|].
    unfold return_match. rewrite after_app.
    assert (Z : starts_word (e ++ ";" ++ source l tail) = false).
    { destruct e as [|d e]; [reflexivity|]. destruct (starts_word (String d e)) eqn:Z; [now apply starts_spec in Z | exact Z]. }
    rewrite Z, until_first by (apply first_char, lacks_has, S). apply one_line_spec in L. now rewrite L.
Qed.
Print Assumptions C62_assert_partial.

(** A program without return statement, or with the word [return] only as a part of other
    words, is unchanged. *)
Theorem C62_unchanged : forall code s, no_return s -> inv_code_with_assert code s = Some s.
Proof. intros code s H. exact (run_none code s "" H). Qed.
Print Assumptions C62_unchanged.

(** tools for the examples *)
Lemma has_lacks c s : has c s = false -> lacks c s.
Proof. intros H a b ->. rewrite has_app in H. cbn in H. rewrite Ascii.eqb_refl, orb_true_r in H. discriminate. Qed.
Lemma no_r_ends p : has "r" p = false -> forall q r, p ++ "return" = q ++ "return" ++ r -> r = "".
Proof.
  induction p as [|d p IH]; intros H q r E.
  - apply (f_equal String.length) in E. rewrite !slen_app in E. destruct r; [reflexivity|]. cbn in E. lia.
  - cbn in H. apply orb_false_iff in H as [H1 H2]. destruct q as [|x q]; cbn in E.
    + injection E as E _. subst d. discriminate H1.
    + injection E as _ E. now apply (IH H2 q r).
Qed.
Lemma no_r s : has "r" s = false -> no_return s.
Proof. intros H q r ->. rewrite has_app in H. cbn in H. rewrite orb_true_r in H. discriminate. Qed.
Definition nl (s : string) : string := String newline s.

Example C62_assert_case :
  let l := [("if (n < 1) ", " 0"); (nl "else { f(); } ", "")] in
  Forall good_part l /\ no_return (nl "}") /\
  inv_code_with_assert "g(n)" (source l (nl "}")) = Some ("if (n < 1) assert g(n);" ++ nl "else { f(); } assert g(n);" ++ nl "}").
Proof.
  cbv zeta. split; [|split; [now apply no_r | reflexivity]].
  assert (W : forall s, last_word false s = false -> ~ ends_in_word s).
  { intros s H (t & c & -> & Q). rewrite last_word_app in H. apply is_word_spec in Q. congruence. }
  constructor; [|constructor; [|constructor]]; (split; [now apply no_r_ends|]; split; [now apply W|]; split;
    [intros Q; apply starts_spec in Q; discriminate | split; now apply has_lacks]).
Qed.
Example C62_unchanged_case : inv_code_with_assert "g(n)" "returned = my_return; x;" = Some "returned = my_return; x;".
Proof. reflexivity. Qed.

(** A return statement that goes on in the next line stays in the prompt, and there is no
    assertion. *)
Theorem C62_lines_refuted : forall code e1 e2, has ";" e1 = false -> has "r" (e1 ++ nl e2 ++ ";") = false ->
  inv_code_with_assert code ("return" ++ e1 ++ nl e2 ++ ";") = Some ("return" ++ e1 ++ nl e2 ++ ";").
Proof.
  intros code e1 e2 S R. apply C62_unchanged. intros q r E.
  destruct q as [|? q]; cbn in E; [|injection E as _ E].
  - right; right. injection E as <-. intros e t U L. apply has_lacks in S. revert S e U L. clear. induction e1 as [|d e1 IH]; intros S e U L.
    + destruct e as [|x e]; [discriminate U|]. cbn in U. injection U as <- U. exact (L "" e eq_refl).
    + destruct e as [|x e]; cbn in U; injection U as -> U; [exact (S "" e1 eq_refl)|].
      apply (IH (fun a b Q => S (String x a) b (f_equal (String x) Q)) e U). intros a b ->. exact (L (String x a) b eq_refl).
  - do 5 (destruct q as [|? q]; cbn in E; [discriminate E | injection E as _ E]).
    exfalso. change (has "r" (e1 ++ String newline (e2 ++ ";")) = false) in R. rewrite E in R. rewrite has_app in R. cbn in R. rewrite orb_true_r in R. discriminate.
Qed.
Print Assumptions C62_lines_refuted.
Example C62_lines_case : inv_code_with_assert "g(n)" ("return a +" ++ nl "  b;") = Some ("return a +" ++ nl "  b;").
Proof. apply (C62_lines_refuted "g(n)" " a +" "  b"); reflexivity. Qed.

(** The word [return] in a comment counts as a statement, up to the next semicolon of the
    line. *)
Theorem C62_comment_refuted : forall code e tail, has ";" e = false -> has "010" e = false -> no_return tail ->
  inv_code_with_assert code ("// return" ++ " " ++ e ++ ";" ++ tail) = Some ("// assert " ++ code ++ ";" ++ tail).
Proof.
  intros code e tail S L T. apply (C62_assert_partial code [("// ", " " ++ e)] tail); [|exact T]. constructor; [|constructor].
  split; [now apply no_r_ends|]. split; [|split; [|split]].
  - intros (t & c & E & W). apply is_word_spec in W. pose proof (last_word_app t false c) as Q. cbn [fst] in E. rewrite <- E, W in Q. discriminate Q.
  - intros Q. apply starts_spec in Q. discriminate.
  - apply has_lacks. exact S.
  - apply has_lacks. exact L.
Qed.
Print Assumptions C62_comment_refuted.
Example C62_comment_case : inv_code_with_assert "g(n)" "// return early; x = 1;" = Some "// assert g(n); x = 1;".
Proof. reflexivity. Qed.
