(** Proofs about the synthesis loops (SynthModel.v). *)

From Coq Require Import String List ZArith Bool Ascii Lia.
From Verif Require Import Ast Dict IrModel SynthModel.
Import ListNotations.
Local Open Scope string_scope.
Local Open Scope Z_scope.

(** [line] is the first line of [text] *)
Definition begins_with_line (text line : string) : Prop :=
  text = line \/ exists rest, text = line ++ String nl rest.

Lemma split_lines_cons : forall s, exists l ls, split_lines s = l :: ls.
Proof.
  induction s as [|c s IH]; cbn [split_lines]; eauto.
  destruct (Ascii.eqb c nl); eauto. destruct IH as (l & ls & ->). eauto.
Qed.

Lemma first_line_begins : forall s, begins_with_line s (first_line s).
Proof.
  unfold first_line. induction s as [|c s IH]; cbn [split_lines].
  - left. reflexivity.
  - destruct (Ascii.eqb c nl) eqn:E.
    + apply Ascii.eqb_eq in E. subst. right. exists s. reflexivity.
    + destruct (split_lines_cons s) as (l & ls & H). rewrite H in *. cbn [hd] in *.
      destruct IH as [IH | (rest & IH)].
      * left. congruence.
      * right. exists rest. rewrite IH. reflexivity.
Qed.

Fixpoint no_nl (s : string) : bool :=
  match s with EmptyString => true | String c r => negb (Ascii.eqb c nl) && no_nl r end.

Lemma begins_first_line : forall l s, no_nl l = true -> begins_with_line s l -> first_line s = l.
Proof.
  unfold first_line. intros l s N [H | (rest & H)]; subst s.
  - induction l as [|c l IH]; [reflexivity|]. cbn [no_nl] in N. apply andb_prop in N. destruct N as [Nc N].
    cbn [split_lines]. destruct (Ascii.eqb c nl); [discriminate|].
    destruct (split_lines_cons l) as (x & xs & E). specialize (IH N). rewrite E in *. cbn [hd] in *. congruence.
  - induction l as [|c l IH].
    + cbn [append split_lines]. reflexivity.
    + cbn [no_nl] in N. apply andb_prop in N. destruct N as [Nc N]. cbn [append split_lines].
      destruct (Ascii.eqb c nl); [discriminate|].
      destruct (split_lines_cons (l ++ String nl rest)) as (x & xs & E). specialize (IH N). rewrite E in *. cbn [hd] in *. congruence.
Qed.

Lemma first_line_unsat : forall s, first_line s = "unsat" <-> begins_with_line s "unsat".
Proof.
  intros s. split; intros H.
  - rewrite <- H. apply first_line_begins.
  - now apply begins_first_line.
Qed.

Lemma verify_unsat : forall ros racket cvc,
  verify_synth_result ros racket cvc = Returned "unsat" <->
  ros = false /\ exists p, cvc = Returned p /\ 0 <= returncode p /\ begins_with_line (stdout p) "unsat".
Proof.
  intros ros racket cvc. unfold verify_synth_result. destruct ros.
  - change verify_rosette_call_binds with false. split; [discriminate | intros [H _]; discriminate].
  - destruct cvc as [p|x].
    + destruct (returncode p <? 0) eqn:E.
      * split; [discriminate|]. intros (_ & q & Q & C & _). injection Q as ->. apply Z.ltb_lt in E. lia.
      * apply Z.ltb_ge in E. split.
        -- intros H. assert (F : first_line (stdout p) = "unsat") by congruence.
           split; auto. exists p. split; auto. split; auto. now apply first_line_unsat.
        -- intros (_ & q & Q & _ & B). injection Q as <-. f_equal. now apply first_line_unsat.
    + split; [discriminate | intros (_ & q & Q & _); discriminate].
Qed.

Section Loop.
  Variables (a : args) (w : world).

  Lemma check_unsat : forall t i cs, check a w t i cs = Returned "unsat" ->
    a_no_verify a = true \/
    exists p, w_cvc w t i cs = Returned p /\ 0 <= returncode p /\ begins_with_line (stdout p) "unsat".
  Proof.
    intros t i cs. unfold check. destruct (a_no_verify a); [auto|]. intros H. right.
    destruct (verify_synth_result false (w_racket w t cs) (w_cvc w t i cs)) as [v | x] eqn:E.
    - rewrite H in E. apply verify_unsat in E. tauto.
    - destruct x; discriminate H.
  Qed.

  Lemma poll_loop_returned : forall fuel t last cs,
    poll_loop a w fuel t last = Some (Returned (Some cs)) ->
    exists t' i text, (t <= t')%nat /\ last < i /\
      w_file w t' (solution_name (a_basename a) i) = Some text /\
      read_solution (w_read w t') (a_names a) (a_funs a) (split_lines text) = Some (Ok cs) /\
      check a w t' i cs = Returned "unsat".
  Proof.
    induction fuel as [|fuel IH]; [discriminate|]. intros t last cs. cbn [poll_loop].
    destruct (_ || _).
    - destruct (w_file w t _) as [text|] eqn:F.
      + destruct (round a w t (last + 1) text) as [[c|x]|] eqn:R.
        * intros H. injection H as <-. exists t, (last + 1), text. split; [lia|]. split; [lia|]. split; [auto|].
          unfold round in R. destruct (read_solution _ _ _ _) as [[c'|?]|]; try discriminate.
          destruct (check a w t (last + 1) c') as [v|] eqn:CH; [|discriminate].
          destruct (String.eqb v "unsat") eqn:V.
          -- injection R as <-. apply String.eqb_eq in V. subst v. auto.
          -- destruct (_ =? _); discriminate.
        * discriminate.
        * intros H. destruct (IH _ _ _ H) as (t' & i & tx & L & LI & rest). exists t', i, tx. split; [lia|]. split; [lia|]. auto.
      + intros H. destruct (IH _ _ _ H) as (t' & i & tx & L & LI & rest). exists t', i, tx. split; [lia|]. split; [lia|]. auto.
    - destruct (w_poll w t) as [[| |]|]; discriminate.
  Qed.

  (** the loop is never left through its condition *)
  Lemma round_next : forall t i text, round a w t i text = None -> i <> a_rounds a.
  Proof.
    intros t i text. unfold round. destruct (read_solution _ _ _ _) as [[c|]|]; try discriminate.
    destruct (check a w t i c); [|discriminate]. destruct (String.eqb _ _); [discriminate|].
    destruct (i =? a_rounds a) eqn:E; [discriminate|]. intros _. now apply Z.eqb_neq in E.
  Qed.

  Lemma cond_true : forall last (code : option Z), last < a_rounds a ->
    (match code with None => true | Some _ => false end : bool) || (last + 1 <? a_rounds a + 1) = true.
  Proof. intros last code H. apply orb_true_iff. right. apply Z.ltb_lt. lia. Qed.

  Lemma poll_loop_not_none : forall fuel t last, last < a_rounds a ->
    poll_loop a w fuel t last <> Some (Returned None).
  Proof.
    induction fuel as [|fuel IH]; [discriminate|]. intros t last L. cbn [poll_loop].
    rewrite (cond_true last (w_poll w t) L). destruct (w_file w t _) as [text|].
    - destruct (round a w t (last + 1) text) as [[c|x]|] eqn:R; try discriminate.
      apply IH. pose proof (round_next _ _ _ R). lia.
    - now apply IH.
  Qed.

  (** where an exception comes from *)
  Lemma check_raised : forall t i cs x, check a w t i cs = Raised x ->
    exists y, w_cvc w t i cs = Raised y.
  Proof.
    intros t i cs x. unfold check. destruct (a_no_verify a); [discriminate|].
    unfold verify_synth_result at 1. destruct (w_cvc w t i cs) as [p|y]; [destruct (_ <? _); discriminate|]. eauto.
  Qed.

  Lemma poll_loop_raised : forall fuel t last x, last < a_rounds a ->
    poll_loop a w fuel t last = Some (Raised x) ->
    x = SynthesisFailed \/ x = VerificationFailed \/
    exists t' i text, w_file w t' (solution_name (a_basename a) i) = Some text /\
      ((exists y, read_solution (w_read w t') (a_names a) (a_funs a) (split_lines text) = Some (Err y)) \/
       (exists cs y, read_solution (w_read w t') (a_names a) (a_funs a) (split_lines text) = Some (Ok cs) /\
                     w_cvc w t' i cs = Raised y)).
  Proof.
    induction fuel as [|fuel IH]; [discriminate|]. intros t last x L. cbn [poll_loop].
    rewrite (cond_true last (w_poll w t) L). destruct (w_file w t _) as [text|] eqn:F; [|intros H; eapply IH; eauto].
    destruct (round a w t (last + 1) text) as [[c|y]|] eqn:R; [discriminate| |].
    - intros H. injection H as ->. unfold round in R.
      destruct (read_solution _ _ _ _) as [[c|e]|] eqn:RS.
      + destruct (check a w t (last + 1) c) as [v|z] eqn:CH.
        * destruct (String.eqb v "unsat"); [discriminate|]. destruct (_ =? _); [|discriminate]. injection R as <-. auto.
        * right. right. exists t, (last + 1), text. split; auto. right.
          destruct (check_raised _ _ _ _ CH) as (y & Y). exists c, y. auto.
      + right. right. exists t, (last + 1), text. split; auto. left. eauto.
      + injection R as <-. auto.
    - pose proof (round_next _ _ _ R). intros Q. eapply IH; [|exact Q]. lia.
  Qed.

  (** waiting for a file that is there from some time on *)
  Lemma wait : forall n t last, last < a_rounds a ->
    (exists text, w_file w (t + n) (solution_name (a_basename a) (last + 1)) = Some text) ->
    exists m text, (m <= n)%nat /\ w_file w (t + m) (solution_name (a_basename a) (last + 1)) = Some text /\
      forall k, poll_loop a w (m + S k) t last =
        match round a w (t + m) (last + 1) text with
        | Some (Returned cs) => Some (Returned (Some cs))
        | Some (Raised x) => Some (Raised x)
        | None => poll_loop a w k (S (t + m)) (last + 1)
        end.
  Proof.
    induction n as [|n IH]; intros t last L (text & F).
    - exists 0%nat, text. rewrite !Nat.add_0_r in *. split; [lia|]. split; [auto|]. intros k.
      cbn [Nat.add poll_loop]. rewrite (cond_true last (w_poll w t) L), F. reflexivity.
    - destruct (w_file w t (solution_name (a_basename a) (last + 1))) as [tx|] eqn:F0.
      + exists 0%nat, tx. rewrite !Nat.add_0_r in *. split; [lia|]. split; [auto|]. intros k.
        cbn [Nat.add poll_loop]. rewrite (cond_true last (w_poll w t) L), F0. reflexivity.
      + destruct (IH (S t) last L) as (m & tx & M & FM & EQ); [exists text; rewrite <- F; f_equal; lia|].
        exists (S m), tx. split; [lia|]. split; [rewrite <- FM; f_equal; lia|]. intros k.
        cbn [Nat.add poll_loop]. rewrite (cond_true last (w_poll w t) L), F0. rewrite EQ.
        replace (S t + m)%nat with (t + S m)%nat by lia. reflexivity.
  Qed.

  Lemma poll_loop_ends :
    (forall i, 0 <= i <= a_rounds a ->
       exists t0, forall t, (t0 <= t)%nat -> w_file w t (solution_name (a_basename a) i) <> None) ->
    forall d t last, Z.to_nat (a_rounds a - last) = d -> -1 <= last < a_rounds a ->
    exists fuel o, poll_loop a w fuel t last = Some o.
  Proof.
    intros FILES. induction d as [|d IH]; intros t last D L; [lia|].
    destruct (FILES (last + 1)) as (t0 & FT); [lia|].
    assert (FX : exists text, w_file w (t + t0) (solution_name (a_basename a) (last + 1)) = Some text).
    { specialize (FT (t + t0)%nat). destruct (w_file w (t + t0) _); eauto. exfalso. apply FT; [lia|auto]. }
    destruct (wait t0 t last ltac:(lia) FX) as (m & text & M & F & EQ).
    destruct (round a w (t + m) (last + 1) text) as [[cs|x]|] eqn:R.
    - exists (m + 1)%nat. eexists. rewrite EQ. reflexivity.
    - exists (m + 1)%nat. eexists. rewrite EQ. reflexivity.
    - pose proof (round_next _ _ _ R).
      destruct (IH (S (t + m)) (last + 1)) as (k & o & K); [lia|lia|].
      exists (m + S k)%nat, o. rewrite EQ. exact K.
  Qed.

  (** a file that never appears *)
  Lemma hangs : forall last, last < a_rounds a ->
    (forall t, w_file w t (solution_name (a_basename a) (last + 1)) = None) ->
    forall fuel t, poll_loop a w fuel t last = None.
  Proof.
    intros last L F. induction fuel as [|fuel IH]; intros t; [reflexivity|]. cbn [poll_loop].
    rewrite (cond_true last (w_poll w t) L), F. apply IH.
  Qed.
End Loop.

(** ** SyGuS *)
Section Sygus.
  Variable w : sygus_world.

  (** the last guess before iteration [t] *)
  Inductive guessed : nat -> option cands -> Prop :=
  | guessed_0 : guessed 0 None
  | guessed_new : forall t o cs, guessed t o -> contains "sygus-candidate" (g_line w t) = true ->
      g_read w t (g_line w t) = Ok cs -> guessed (S t) (Some cs)
  | guessed_old : forall t o, guessed t o -> contains "sygus-candidate" (g_line w t) = false -> guessed (S t) o.

  Lemma sygus_returned : forall fuel t cur cs, guessed t cur -> sygus_loop w fuel t cur = Some (Returned cs) ->
    exists t' p, guessed t' (Some cs) /\ strip (g_line w t') = "(" /\ g_cvc w t' cs = Returned p /\
      0 <= returncode p /\ begins_with_line (stdout p) "unsat".
  Proof.
    induction fuel as [|fuel IH]; [discriminate|]. intros t cur cs G. cbn [sygus_loop].
    destruct (contains "fail" (g_line w t)); [discriminate|].
    destruct (contains "sygus-candidate" (g_line w t)) eqn:C.
    - destruct (g_read w t (g_line w t)) as [c|] eqn:R; [|discriminate].
      apply IH. econstructor; eauto.
    - destruct (String.eqb (strip (g_line w t)) "(") eqn:S.
      + destruct cur as [c|]; [|discriminate].
        destruct (verify_synth_result false (Raised OtherExn) (g_cvc w t c)) as [v|] eqn:V; [|discriminate].
        destruct (String.eqb v "unsat") eqn:E; [|discriminate]. apply String.eqb_eq in E. subst v.
        intros H. injection H as <-. apply verify_unsat in V. destruct V as (_ & p & P & PC & PB).
        apply String.eqb_eq in S. exists t, p. auto.
      + intros H. destruct (g_poll w t) as [k|]; [destruct (0 <? k); [discriminate|]|]; eapply IH; try exact H; constructor; auto.
  Qed.
End Sygus.

(** ** the outer search *)
Section Search.
  Variable call : attempt -> ran cands.
  Variable emit : cands -> bool.

  Lemma with_bound_log : forall b hr nv log r, with_bound call emit b hr nv = (log, r) ->
    exists pre at_ o, log = (pre ++ [(at_, o)])%list /\
      (forall x, In x pre -> snd x = Raised SynthesisFailed) /\
      (forall x, In x log -> call (fst x) = snd x /\ t_bound (fst x) = b /\
          t_no_verify (fst x) = (if t_relaxed (fst x) then false else nv) /\ (t_relaxed (fst x) = true -> hr = true)) /\
      match o with
      | Returned cs => r = if emit cs then Returned cs else Raised OtherExn
      | Raised x => r = Raised x
      end.
  Proof.
    intros b hr nv log r. unfold with_bound.
    set (s := {| t_relaxed := false; t_bound := b; t_no_verify := nv |}).
    destruct (call s) as [cs|x] eqn:C.
    - intros H. injection H as <- <-. exists [], s, (Returned cs). split; [reflexivity|]. split; [intros ? []|].
      split; [|reflexivity]. intros x [<-|[]]. cbn [fst snd]. split; [exact C|]. cbn. repeat split; discriminate.
    - assert (P : forall y, ([(s, Raised x)], Raised x) = (log, r) -> y = x ->
         exists pre at_ o, log = (pre ++ [(at_, o)])%list /\
      (forall x, In x pre -> snd x = Raised SynthesisFailed) /\
      (forall x, In x log -> call (fst x) = snd x /\ t_bound (fst x) = b /\
          t_no_verify (fst x) = (if t_relaxed (fst x) then false else nv) /\ (t_relaxed (fst x) = true -> hr = true)) /\
      match o with
      | Returned cs => r = if emit cs then Returned cs else Raised OtherExn
      | Raised x => r = Raised x
      end).
      { intros y H ->. injection H as <- <-. exists [], s, (Raised x). split; [reflexivity|]. split; [intros ? []|].
        split; [|reflexivity]. intros z [<-|[]]. cbn [fst snd]. split; [exact C|]. cbn. repeat split; discriminate. }
      destruct x; try (intros H; eapply P; eauto; fail).
      destruct hr; cbn [negb]; [|intros H; eapply P; eauto].
      set (rl := {| t_relaxed := true; t_bound := b; t_no_verify := false |}).
      intros H. injection H as <- <-. exists [(s, Raised SynthesisFailed)], rl, (call rl). split; [reflexivity|].
      split; [intros ? [<-|[]]; reflexivity|]. split.
      + intros z [<-|[<-|[]]]; cbn [fst snd]; split; auto; cbn; repeat split; auto; discriminate.
      + destruct (call rl); reflexivity.
  Qed.

  Lemma search_log : forall fuel b hr nv log r, search call emit fuel b hr nv = Some (log, r) ->
    exists pre at_ o, log = (pre ++ [(at_, o)])%list /\
      (forall x, In x pre -> snd x = Raised SynthesisFailed \/ snd x = Raised VerificationFailed) /\
      (forall x, In x log -> call (fst x) = snd x /\ b <= t_bound (fst x) /\
          t_no_verify (fst x) = (if t_relaxed (fst x) then false else nv) /\ (t_relaxed (fst x) = true -> hr = true)) /\
      o <> Raised VerificationFailed /\
      match o with
      | Returned cs => r = if emit cs then Returned cs else Raised OtherExn
      | Raised x => r = Raised x
      end.
  Proof.
    induction fuel as [|fuel IH]; [discriminate|]. intros b hr nv log r. cbn [search].
    destruct (with_bound call emit b hr nv) as [l r0] eqn:W.
    destruct (with_bound_log _ _ _ _ _ W) as (pre & at_ & o & L & P & A & O).
    assert (DONE : Some (l, r0) = Some (log, r) -> r0 <> Raised VerificationFailed ->
       exists pre at_ o, log = (pre ++ [(at_, o)])%list /\
      (forall x, In x pre -> snd x = Raised SynthesisFailed \/ snd x = Raised VerificationFailed) /\
      (forall x, In x log -> call (fst x) = snd x /\ b <= t_bound (fst x) /\
          t_no_verify (fst x) = (if t_relaxed (fst x) then false else nv) /\ (t_relaxed (fst x) = true -> hr = true)) /\
      o <> Raised VerificationFailed /\
      match o with
      | Returned cs => r = if emit cs then Returned cs else Raised OtherExn
      | Raised x => r = Raised x
      end).
    { intros H NV. injection H as <- <-. exists pre, at_, o. split; [auto|]. split; [intros; left; auto|].
      split; [intros x IN; destruct (A x IN) as (a1 & a2 & a3 & a4); repeat split; auto; lia|].
      split; [|auto]. intros ->. apply NV. exact O. }
    destruct r0 as [cs|[]]; try (intros H; apply DONE; [exact H | discriminate]).
    destruct (search call emit fuel (b + 1) hr nv) as [[log' r']|] eqn:S; [|discriminate].
    intros H. injection H as <- <-.
    destruct (IH _ _ _ _ _ S) as (pre' & at' & o' & L' & P' & A' & NV & O').
    exists (l ++ pre')%list, at', o'. split; [rewrite L', app_assoc; reflexivity|].
    split; [|split; [|auto]].
    - intros x IN. apply in_app_or in IN. destruct IN as [IN|IN]; [|auto].
      rewrite L in IN. apply in_app_or in IN. destruct IN as [IN|[<-|[]]]; [left; auto|].
      cbn [snd]. destruct o as [cs|x]; [destruct (emit cs); discriminate|]. right. congruence.
    - intros x IN. apply in_app_or in IN. destruct IN as [IN|IN].
      + destruct (A x IN) as (a1 & a2 & a3 & a4). repeat split; auto. lia.
      + destruct (A' x IN) as (a1 & a2 & a3 & a4). repeat split; auto. lia.
  Qed.
End Search.
