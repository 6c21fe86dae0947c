(** C65: [remove_comments] removes the comments of Python code and nothing else. *)

From Coq Require Import String Ascii List Bool Arith Lia.
From Verif Require Import LuModel LuProofs CommentModel.
Import ListNotations.
Local Open Scope string_scope.

(** ** Specification *)

Definition newline : ascii := "010"%char.
Definition nl (s : string) : string := String newline s.
(** [c] is not in [s]; [p] is nowhere in [s]; [p] is in [g ++ p] at the end only *)
Definition lacks (c : ascii) (s : string) : Prop := forall a b, s <> a ++ String c b.
Definition nowhere (p s : string) : Prop := forall q r, s <> q ++ p ++ r.
Definition only_end (p g : string) : Prop := forall q r, g ++ p = q ++ p ++ r -> r = "".

(** lines of code, each with a comment or without *)
Definition line : Type := (string * option string)%type.
Definition line_text (l : line) : string := fst l ++ match snd l with Some c => "#" ++ c | None => "" end.
Fixpoint lines (f : line -> string) (l : list line) : string :=
  match l with [] => "" | [x] => f x | x :: l' => f x ++ nl (lines f l') end.
Definition good_line (l : line) : Prop :=
  lacks newline (fst l) /\ lacks "#" (fst l) /\ match snd l with Some c => lacks newline c | None => True end.

(** code with quoted texts: code, then a text in triple quotes of one kind, and so on *)
Definition part : Type := (string * string * string)%type.
Fixpoint with_quotes (l : list part) (tail : string) : string :=
  match l with [] => tail | (code, q, t) :: l' => code ++ q ++ t ++ q ++ with_quotes l' tail end.
Fixpoint only_code (l : list part) (tail : string) : string :=
  match l with [] => tail | (code, _, _) :: l' => code ++ only_code l' tail end.
Definition triple1 : string := "'''".
Definition triple2 : string := String """" (String """" (String """" "")).
(** there are no quotes in the code, and the quoted text has not the quotes around it *)
Definition good (x : part) : Prop :=
  match x with (code, q, t) =>
    (q = triple1 \/ q = triple2) /\ lacks "'" code /\ lacks """" code /\ only_end q t end.

(** ** Proofs *)

Lemma lacks_has c s : lacks c s -> has c s = false.
Proof.
  induction s as [|d s IH]; intros H; [reflexivity|]. cbn. apply orb_false_iff. split.
  - destruct (Ascii.eqb_spec c d) as [->|]; [|reflexivity]. exfalso. exact (H "" s eq_refl).
  - apply IH. intros a b ->. exact (H (String d a) b eq_refl).
Qed.
Lemma has_lacks c s : has c s = false -> lacks c s.
Proof. intros H a b ->. rewrite has_app in H. cbn in H. rewrite Ascii.eqb_refl, orb_true_r in H. discriminate. Qed.
Lemma eqb_sym' a b : Ascii.eqb a b = Ascii.eqb b a.
Proof. destruct (Ascii.eqb_spec a b), (Ascii.eqb_spec b a); congruence. Qed.

Lemma hash_code : forall p s, has newline p = false -> has "#" p = false -> remove_hash false (p ++ s) = p ++ remove_hash false s.
Proof.
  induction p as [|c p IH]; intros s N H; [reflexivity|]. cbn [has] in N, H. apply orb_false_iff in N as [N1 N2]. apply orb_false_iff in H as [H1 H2].
  cbn [append remove_hash]. rewrite eqb_sym' in N1, H1. unfold newline in N1. rewrite N1, H1. cbn [orb]. now rewrite IH.
Qed.
Lemma hash_comment : forall p s, has newline p = false -> remove_hash true (p ++ s) = remove_hash true s.
Proof.
  induction p as [|c p IH]; intros s N; [reflexivity|]. cbn [has] in N. apply orb_false_iff in N as [N1 N2].
  cbn [append remove_hash]. rewrite eqb_sym' in N1. unfold newline in N1. rewrite N1. cbn [orb]. now apply IH.
Qed.

Lemma quoted_len s r : quoted s = Some r -> String.length r < String.length s.
Proof.
  unfold quoted. destruct (after q1 s) as [t|] eqn:A.
  - apply after_inv in A. destruct (until q1 t) as [[g u]|] eqn:U; [|discriminate]. intros [= <-]. apply until_len in U. rewrite A, slen_app. cbn in *. lia.
  - destruct (after q2 s) as [t|] eqn:B; [|discriminate]. apply after_inv in B. destruct (until q2 t) as [[g u]|] eqn:U; [|discriminate].
    intros [= <-]. apply until_len in U. rewrite B, slen_app. cbn in *. lia.
Qed.
Lemma quoted_fuel : forall n m s, String.length s < n -> String.length s < m ->
  remove_quoted_from n s = remove_quoted_from m s /\ exists u, remove_quoted_from n s = Some u.
Proof.
  induction n as [|n IH]; intros m s N M; [lia|]. destruct m as [|m]; [lia|]. cbn [remove_quoted_from].
  destruct (quoted s) as [r|] eqn:E.
  - apply quoted_len in E. apply IH; lia.
  - destruct s as [|c s]; [eauto|]. cbn in N, M. destruct (IH m s) as [Q (u & Q')]; [lia..|]. rewrite <- Q, Q'. eauto.
Qed.
Lemma quoted_skip c s : quoted (String c s) = None ->
  remove_quoted (String c s) = match remove_quoted s with Some u => Some (String c u) | None => None end.
Proof. intros H. unfold remove_quoted. cbn [remove_quoted_from String.length]. now rewrite H. Qed.
Lemma quoted_match s r : quoted s = Some r -> remove_quoted s = remove_quoted r.
Proof.
  intros H. unfold remove_quoted. pose proof (quoted_len _ _ H). transitivity (remove_quoted_from (String.length s) r).
  - cbn [remove_quoted_from]. now rewrite H.
  - apply quoted_fuel; lia.
Qed.
Lemma quoted_code : forall p s, has "'" p = false -> has """" p = false ->
  remove_quoted (p ++ s) = match remove_quoted s with Some u => Some (p ++ u) | None => None end.
Proof.
  induction p as [|c p IH]; intros s A B; [change ("" ++ s) with s; now destruct (remove_quoted s)|]. cbn [has] in A, B.
  apply orb_false_iff in A as [A1 A2]. apply orb_false_iff in B as [B1 B2]. change (String c p ++ s) with (String c (p ++ s)).
  rewrite quoted_skip; [rewrite IH by assumption; now destruct (remove_quoted s)|].
  unfold quoted, q1, q2. cbn [after]. now rewrite A1, B1.
Qed.

(** ** Theorems *)

Theorem C65_total : forall s, exists u, remove_comments s = Some u.
Proof. intros s. unfold remove_comments, remove_quoted. apply (quoted_fuel _ (S (String.length (remove_hash false s)))); lia. Qed.
Print Assumptions C65_total.

Lemma quoted_absent : forall s, nowhere triple1 s -> nowhere triple2 s -> remove_quoted s = Some s.
Proof.
  induction s as [|c s IH]; intros A B; [reflexivity|].
  rewrite quoted_skip by (unfold quoted; now rewrite (absent_after q1 _ A), (absent_after q2 _ B)).
  now rewrite IH by now apply absent_tail with c.
Qed.
Lemma lines_hash : forall l, Forall good_line l -> remove_hash false (lines line_text l) = lines fst l.
Proof.
  assert (T : forall x s, good_line x -> s = "" \/ (exists t, s = nl t) ->
    remove_hash false (line_text x ++ s) = fst x ++ remove_hash false s).
  { intros [p [c|]] s (N & H & C) S; unfold line_text; cbn [fst snd] in *; apply lacks_has in N, H; rewrite !sapp_assoc, hash_code by assumption; [|reflexivity].
    f_equal. change (("#" ++ c) ++ s) with (String "#" (c ++ s)) || idtac. cbn [append]. cbn [remove_hash Ascii.eqb Bool.eqb orb].
    rewrite hash_comment by now apply lacks_has. destruct S as [->|(t & ->)]; reflexivity. }
  induction l as [|x [|y l] IH]; intros F; [reflexivity| |]; inversion F as [|? ? GX F']; subst.
  - cbn [lines]. rewrite <- (sapp_nil (line_text x)). rewrite T by auto. apply sapp_nil.
  - change (lines line_text (x :: y :: l)) with (line_text x ++ nl (lines line_text (y :: l))).
    change (lines fst (x :: y :: l)) with (fst x ++ nl (lines fst (y :: l))).
    rewrite T by eauto. f_equal. unfold nl at 1. cbn [remove_hash]. unfold newline. cbn [Ascii.eqb Bool.eqb]. unfold nl. f_equal. now apply IH.
Qed.
(** Code without triple quotes loses the comments at the ends of its lines, and nothing
    else.  Missing: a # inside a text (below). *)
Theorem C65_lines_partial : forall l, Forall good_line l -> nowhere triple1 (lines fst l) -> nowhere triple2 (lines fst l) ->
  remove_comments (lines line_text l) = Some (lines fst l).
Proof. intros l F A B. unfold remove_comments. rewrite lines_hash by exact F. now apply quoted_absent. Qed.
Print Assumptions C65_lines_partial.

Lemma hash_none s : has "#" s = false -> remove_hash false s = s.
Proof.
  induction s as [|c s IH]; intros H; [reflexivity|]. cbn [has] in H. apply orb_false_iff in H as [H1 H2]. cbn [remove_hash].
  rewrite eqb_sym' in H1. rewrite H1, IH by exact H2. now destruct (Ascii.eqb c "010").
Qed.
(** Code without # loses what is between triple quotes, with them, and nothing else. *)
Theorem C65_quotes_partial : forall l tail, Forall good l -> lacks "'" tail -> lacks """" tail -> lacks "#" (with_quotes l tail) ->
  remove_comments (with_quotes l tail) = Some (only_code l tail).
Proof.
  intros l tail F A B H. unfold remove_comments. rewrite hash_none by now apply lacks_has. clear H.
  induction F as [|[[code q] t] l (Q & C1 & C2 & O) F IH]; cbn [with_quotes only_code].
  - pose proof (quoted_code tail "" (lacks_has _ _ A) (lacks_has _ _ B)) as Z. rewrite sapp_nil in Z. rewrite Z.
    change (Some (tail ++ "") = Some tail). now rewrite sapp_nil.
  - rewrite quoted_code by now apply lacks_has. rewrite (quoted_match _ (with_quotes l tail)); [now rewrite IH|].
    unfold quoted. destruct Q as [-> | ->].
    + change triple1 with q1. rewrite after_app. now rewrite (until_first q1 t (with_quotes l tail) O).
    + change triple2 with q2. assert (Z : after q1 (q2 ++ t ++ q2 ++ with_quotes l tail) = None) by reflexivity. rewrite Z, after_app.
      now rewrite (until_first q2 t (with_quotes l tail) O).
Qed.
Print Assumptions C65_quotes_partial.

Example C65_lines_case :
  remove_comments (lines line_text [("def f(x):", Some " doc"); ("  return x", None); ("", Some "")]) =
    Some (lines fst [("def f(x):", None); ("  return x", None); ("", None)]) /\
  nowhere triple1 (lines fst [("def f(x):", Some " doc"); ("  return x", None); ("", Some "")]) /\
  nowhere triple2 (lines fst [("def f(x):", Some " doc"); ("  return x", None); ("", Some "")]) /\
  Forall good_line [("def f(x):", Some " doc"); ("  return x", None); ("", Some "")].
Proof.
  split; [reflexivity|]. split; [intros q r; now apply (has_lacks "'")|]. split; [intros q r; now apply (has_lacks """")|]. repeat constructor; cbn; now apply has_lacks.
Qed.
Example C65_quotes_case : remove_comments (with_quotes [("a ", triple2, "it's"); (" b", triple1, "")] " c") = Some "a  b c".
Proof. reflexivity. Qed.

(** A # inside a text is taken for a comment: the rest of the line is lost. *)
Theorem C65_text_refuted : forall p q, lacks newline p -> lacks "#" p -> lacks newline q -> nowhere triple1 p -> nowhere triple2 p ->
  remove_comments (p ++ "#" ++ q) = Some p.
Proof.
  intros p q N H Q A B. pose proof (C65_lines_partial [(p, Some q)]) as L. cbn [lines line_text fst snd] in L. apply L; auto.
  repeat constructor; assumption.
Qed.
Print Assumptions C65_text_refuted.
Definition quote : string := String """" "".
Example C65_text_case : remove_comments ("s = " ++ quote ++ "a#b" ++ quote) = Some ("s = " ++ quote ++ "a").
Proof. reflexivity. Qed.

(** A # inside the last line of a text in triple quotes makes the code up to the next triple
    quotes disappear. *)
Theorem C65_code_lost_refuted : forall a b code t,
  lacks newline a -> lacks "#" a -> lacks newline b -> lacks "#" code -> lacks "#" t -> only_end q2 (a ++ nl code) -> nowhere triple1 t -> nowhere triple2 t ->
  remove_comments (triple2 ++ a ++ "#" ++ b ++ triple2 ++ nl code ++ triple2 ++ t) = Some t.
Proof.
  intros a b code t NA HA NB HC HT O T1 T2. unfold remove_comments.
  assert (E : remove_hash false (triple2 ++ a ++ "#" ++ b ++ triple2 ++ nl code ++ triple2 ++ t) = q2 ++ (a ++ nl code) ++ q2 ++ t).
  { rewrite hash_code by reflexivity. rewrite hash_code by now apply lacks_has. cbn [append]. cbn [remove_hash Ascii.eqb Bool.eqb orb].
    change (b ++ String """" (String """" (String """" (String newline (code ++ triple2 ++ t))))) with (b ++ (triple2 ++ nl (code ++ triple2 ++ t))) || idtac.
    rewrite hash_comment by now apply lacks_has. rewrite !sapp_assoc. do 2 f_equal.
    change (remove_hash true (triple2 ++ nl (code ++ triple2 ++ t)) = nl code ++ triple2 ++ t).
    rewrite hash_comment by reflexivity. unfold nl at 1. cbn [remove_hash]. unfold newline. cbn [Ascii.eqb Bool.eqb].
    unfold nl. cbn [append]. f_equal. apply hash_none. rewrite !has_app, (lacks_has _ _ HC), (lacks_has _ _ HT). reflexivity. }
  rewrite E, (quoted_match _ t); [now apply quoted_absent|]. unfold quoted.
  assert (Z : after q1 (q2 ++ (a ++ nl code) ++ q2 ++ t) = None) by reflexivity. rewrite Z, after_app. now rewrite (until_first q2 _ t O).
Qed.
Print Assumptions C65_code_lost_refuted.
Example C65_code_lost_case :
  remove_comments (triple2 ++ "see #1" ++ triple2 ++ nl "return x" ++ triple2 ++ " tail") = Some " tail".
Proof. reflexivity. Qed.
