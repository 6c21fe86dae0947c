(** Proofs about the s-expression reader. *)

From Coq Require Import DecimalString DecimalZ DecimalNat DecimalPos.
From Coq Require Import String Ascii List ZArith Bool Lia.
From Verif Require Import Ast Dict SexpModel.
Import ListNotations.
Local Open Scope string_scope.
Local Open Scope list_scope.

Section SexpInd.
  Variable P : sexp -> Prop.
  Hypothesis HA : forall w, P (SA w).
  Hypothesis HL : forall l, Forall P l -> P (SL l).
  Fixpoint sexp_ind' (s : sexp) : P s :=
    match s with
    | SA w => HA w
    | SL l => HL l ((fix go (l : list sexp) : Forall P l :=
                       match l with [] => Forall_nil P | x :: r => Forall_cons x (sexp_ind' x) (go r) end) l)
    end.
End SexpInd.

(** a character of a word, a word *)
Definition word_char (c : ascii) : bool := negb (Ascii.eqb c "(" || Ascii.eqb c ")" || is_blank c).
Fixpoint all_word (s : string) : bool :=
  match s with EmptyString => true | String c r => word_char c && all_word r end.
Definition word (s : string) : bool := negb (String.eqb s "") && all_word s.

(** the words of an s-expression are words *)
Fixpoint words (s : sexp) : bool := match s with SA w => word w | SL l => forallb words l end.

(** the tokens of an s-expression *)
Fixpoint toks (s : sexp) : list token := match s with SA w => [TW w] | SL l => TL :: flat_map toks l ++ [TR] end.

(** [s], followed by the end of the text or a character that ends a word, gives the tokens [ts] *)
Definition ends (r : string) : bool := match r with EmptyString => true | String c _ => negb (word_char c) end.
Definition reads (s : string) (ts : list token) : Prop :=
  forall r, ends r = true -> tokens (s ++ r)%string = ts ++ tokens r.

Lemma tok_open r : tokens (String "(" r) = TL :: tokens r.
Proof. reflexivity. Qed.
Lemma tok_close r : tokens (String ")" r) = TR :: tokens r.
Proof. reflexivity. Qed.
Lemma tok_blank c r : is_blank c = true -> tokens (String c r) = tokens r.
Proof.
  intros B. unfold tokens. cbn [lex].
  destruct (Ascii.eqb_spec c "("); [subst; discriminate B|]. destruct (Ascii.eqb_spec c ")"); [subst; discriminate B|].
  rewrite B. reflexivity.
Qed.
Lemma tok_space r : tokens (String " " r) = tokens r.
Proof. reflexivity. Qed.

Lemma lex_ends r : ends r = true -> fst (lex r) = "".
Proof.
  destruct r as [|c r]; [reflexivity|]. cbn [ends lex]. unfold word_char. rewrite negb_involutive.
  destruct (Ascii.eqb c "("); [reflexivity|]. destruct (Ascii.eqb c ")"); [reflexivity|]. cbn. intros ->. reflexivity.
Qed.
Lemma lex_word w r : all_word w = true -> lex (w ++ r) = ((w ++ fst (lex r))%string, snd (lex r)).
Proof.
  induction w as [|c w IH]; cbn [all_word String.append]; intros W.
  - destruct (lex r); reflexivity.
  - apply andb_true_iff in W. destruct W as [C W]. cbn [lex]. rewrite (IH W).
    unfold word_char in C. apply negb_true_iff, orb_false_iff in C. destruct C as [C B]. apply orb_false_iff in C. destruct C as [C1 C2].
    rewrite C1, C2, B. reflexivity.
Qed.
Lemma reads_word w : word w = true -> reads w [TW w].
Proof.
  intros W r E. unfold word in W. apply andb_true_iff in W. destruct W as [N W].
  unfold tokens. rewrite (lex_word w r W), (lex_ends r E).
  unfold flush. cbn [fst snd]. rewrite (lex_ends r E).
  assert (A : (w ++ "" = w)%string) by (clear; induction w; cbn; congruence). rewrite A.
  destruct w; [discriminate N|reflexivity].
Qed.

Lemma app_s (a b c : string) : ((a ++ b) ++ c = a ++ (b ++ c))%string.
Proof. induction a; cbn; congruence. Qed.

Lemma reads_nil : reads "" [].
Proof. intros r _. reflexivity. Qed.
Lemma reads_sep c a b ts us : is_blank c = true -> reads a ts -> reads b us -> reads (a ++ String c b) (ts ++ us).
Proof.
  intros B A H r E. rewrite app_s. cbn [String.append]. rewrite A.
  - rewrite (tok_blank c _ B), (H r E). apply app_assoc.
  - cbn [ends]. unfold word_char. rewrite B, orb_true_r. reflexivity.
Qed.
Lemma reads_space a b ts us : reads a ts -> reads b us -> reads (a ++ String " " b) (ts ++ us).
Proof. apply reads_sep. reflexivity. Qed.
Lemma reads_blank c a ts : is_blank c = true -> reads a ts -> reads (String c a) ts.
Proof. intros B A r E. cbn [String.append]. rewrite (tok_blank c _ B). auto. Qed.
Lemma reads_paren a ts : reads a ts -> reads (String "(" (a ++ ")")) (TL :: ts ++ [TR]).
Proof.
  intros A r E. cbn [String.append]. rewrite app_s, tok_open. rewrite A by reflexivity.
  cbn [String.append]. rewrite tok_close. cbn. rewrite <- app_assoc. reflexivity.
Qed.
(** text that goes on with a parenthesis *)
Lemma reads_open a b ts us : reads a ts -> reads (String "(" b) us -> reads (a ++ String "(" b) (ts ++ us).
Proof.
  intros A H r E. rewrite app_s. rewrite A by reflexivity. rewrite (H r E). apply app_assoc.
Qed.
Lemma reads_eq a ts us : reads a ts -> ts = us -> reads a us.
Proof. intros H ->. exact H. Qed.

Lemma tokens_reads a ts : reads a ts -> tokens a = ts.
Proof.
  intros A. specialize (A "" eq_refl). rewrite app_nil_r in A.
  assert (X : (a ++ "" = a)%string) by (clear; induction a; cbn; congruence). rewrite X in A. exact A.
Qed.

(** the parser undoes [toks] *)
Lemma parse_inner b s : forall r cur p up, parse b (toks s ++ r) cur (p :: up) = parse b r (s :: cur) (p :: up).
Proof.
  induction s as [w|l IH] using sexp_ind'; intros r cur p up; cbn [toks].
  - reflexivity.
  - cbn [app parse].
    assert (L : forall r cur0 p0 up0, parse b (flat_map toks l ++ r) cur0 (p0 :: up0) = parse b r (rev l ++ cur0) (p0 :: up0)).
    { clear cur p up r. induction l as [|x l IHl]; intros r cur p up; [reflexivity|].
      inversion IH as [|? ? H1 H2]; subst. cbn [flat_map]. rewrite <- app_assoc, H1, (IHl H2).
      cbn [rev]. rewrite <- app_assoc. reflexivity. }
    rewrite <- app_assoc, L. cbn [app parse]. rewrite app_nil_r, rev_involutive. reflexivity.
Qed.
Lemma parse_lists b ls : forall cur, forallb (fun s => match s with SL _ => true | SA _ => b end) ls = true ->
  parse b (flat_map toks ls) cur [] = Some (rev cur ++ ls).
Proof.
  induction ls as [|s ls IH]; intros cur H; cbn [flat_map].
  - cbn. rewrite app_nil_r. reflexivity.
  - cbn [forallb] in H. apply andb_true_iff in H. destruct H as [H1 H2].
    destruct s as [w|l]; cbn [toks app parse].
    + subst b. rewrite (IH _ H2). cbn [rev]. rewrite <- app_assoc. reflexivity.
    + assert (L : forall r cur0 p0 up0, parse b (flat_map toks l ++ r) cur0 (p0 :: up0) = parse b r (rev l ++ cur0) (p0 :: up0)).
      { clear. induction l as [|x l IHl]; intros r cur p up; [reflexivity|].
        cbn [flat_map]. rewrite <- app_assoc, parse_inner, IHl. cbn [rev]. rewrite <- app_assoc. reflexivity. }
      rewrite <- app_assoc, L. cbn [app parse]. rewrite app_nil_r, rev_involutive, (IH _ H2).
      cbn [rev]. rewrite <- app_assoc. reflexivity.
Qed.

(** ** numbers *)
Lemma uint_word u : all_word (NilEmpty.string_of_uint u) = true.
Proof. induction u; cbn; auto. Qed.
Lemma to_uint_nonempty n : NilEmpty.string_of_uint (Nat.to_uint n) <> "".
Proof.
  intros E. assert (U : Nat.to_uint n = Decimal.Nil) by (destruct (Nat.to_uint n); [reflexivity|discriminate E..]).
  pose proof (DecimalNat.Unsigned.of_to n) as V. rewrite U in V. cbn in V. subst n. discriminate U.
Qed.
Lemma nat_word n : word (string_of_nat n) = true.
Proof.
  unfold word, string_of_nat. rewrite uint_word, andb_true_r. apply negb_true_iff, String.eqb_neq, to_uint_nonempty.
Qed.
Lemma pos_uint_nonempty p : NilEmpty.string_of_uint (Pos.to_uint p) <> "".
Proof.
  intros E. assert (U : Pos.to_uint p = Decimal.Nil) by (destruct (Pos.to_uint p); [reflexivity|discriminate E..]).
  pose proof (DecimalPos.Unsigned.of_to p) as V. rewrite U in V. discriminate V.
Qed.
Lemma Z_word z : word (string_of_Z z) = true.
Proof.
  unfold word, string_of_Z. destruct z as [|p|p]; cbn [Z.to_int NilEmpty.string_of_int].
  - reflexivity.
  - rewrite uint_word, andb_true_r. apply negb_true_iff, String.eqb_neq, pos_uint_nonempty.
  - cbn. apply uint_word.
Qed.
Lemma string_of_Z_inj a b : string_of_Z a = string_of_Z b -> a = b.
Proof.
  unfold string_of_Z. intros H.
  apply (f_equal NilEmpty.int_of_string) in H.
  rewrite !NilEmpty.isi in H. injection H as H. apply DecimalZ.to_int_inj in H. exact H.
Qed.
