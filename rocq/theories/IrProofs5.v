(** Each repeated choice is defined once; pruning of conditionals. *)

From Coq Require Import String List ZArith Bool Lia.
From Verif Require Import Ast Semantics Dict IrModel IrProofs IrProofs2 IrProofs3 IrProofs4.
Import ListNotations.
Local Open Scope string_scope.
Local Open Scope list_scope.

(* ------------------------------------------------------------------ *)
(** * Every choice of the grammar is shared, and only once *)

Definition covered (cnts : list (expr * nat)) (s : expr) : Prop :=
  exists p, In p cnts /\ expr_eqb s (fst p) = true.

Definition all_covered (cnts : list (expr * nat)) (e : expr) : Prop :=
  forall s, subexpr s e -> is_expr s = true -> covered cnts s.

Lemma sub_node_inv s k t args : subexpr s (Node k t args) ->
  s = Node k t args \/ exists a, In a args /\ subexpr s a.
Proof. intros H; inversion H; subst; eauto. Qed.

Lemma eqb_sub e1 : forall e2 s, expr_eqb e1 e2 = true -> subexpr s e1 ->
  exists s', subexpr s' e2 /\ expr_eqb s s' = true.
Proof.
  induction e1 using expr_ind'; intros e2 s E S.
  - exists e2. split; [constructor|]. inversion S; subst; auto.
  - destruct e2 as [|k2 t2 args2]; [discriminate|].
    apply sub_node_inv in S as [->|(a & Ha & S)].
    + exists (Node k2 t2 args2). split; [constructor | auto].
    + cbn [expr_eqb] in E. apply andb_true_iff in E as [_ E].
      assert (X : exists b, In b args2 /\ expr_eqb a b = true).
      { clear -E Ha. revert args2 E. induction args; intros [|b args2]; simpl in *; try discriminate; [tauto|].
        rewrite andb_true_iff. intros [E1 E2]. destruct Ha as [->|Ha].
        - exists b; auto. - destruct (IHargs Ha _ E2) as (b' & ? & ?). exists b'; auto. }
      destruct X as (b & Hb & Eb). rewrite Forall_forall in H.
      destruct (H a Ha b s Eb S) as (s' & S' & E'). exists s'. split; auto.
      eapply sub_arg; eauto.
Qed.

Lemma covered_eqb cnts s s' : expr_eqb s s' = true -> covered cnts s' -> covered cnts s.
Proof. intros E (p & I & E'). exists p. split; auto. eapply expr_eqb_trans; eauto. Qed.

Lemma all_covered_eqb cnts e e' : expr_eqb e e' = true -> all_covered cnts e' -> all_covered cnts e.
Proof.
  intros E A s S X. destruct (eqb_sub e e' s E S) as (s' & S' & E').
  eapply covered_eqb; [exact E'|]. apply A; auto.
  destruct s, s'; simpl in *; auto; discriminate.
Qed.

(** [c'] keeps everything covered by [c] *)
Definition keeps (c c' : list (expr * nat)) : Prop := forall s, covered c s -> covered c' s.

Lemma keeps_all c c' e : keeps c c' -> all_covered c e -> all_covered c' e.
Proof. intros K A s S X; auto. Qed.

Definition closed_upto (n : nat) (c : list (expr * nat)) : Prop :=
  forall p, In p c -> size (fst p) <= n -> all_covered c (fst p).

Fixpoint distinct (c : list (expr * nat)) : Prop :=
  match c with
  | [] => True
  | p :: r => (forall q, In q r -> expr_eqb (fst p) (fst q) = false) /\ distinct r
  end.

Lemma eqb_false_l a a' b : expr_eqb a a' = true -> expr_eqb a b = false -> expr_eqb a' b = false.
Proof.
  intros E F. destruct (expr_eqb a' b) eqn:X; auto.
  rewrite (expr_eqb_trans _ _ _ E X) in F. discriminate.
Qed.

Lemma set_nth_props i x (c : list (expr * nat)) q :
  nth_error c i = Some q -> expr_eqb (fst q) (fst x) = true ->
  keeps c (set_nth i x c) /\ keeps (set_nth i x c) c /\ (distinct c -> distinct (set_nth i x c)).
Proof.
  revert i. induction c as [|p c IH]; destruct i as [|i]; simpl; intros N E; try discriminate.
  - injection N as ->. split; [|split; [|intros H; split]].
    + intros s (p & [<-|I] & E'); [exists x; split; [left; auto|eapply expr_eqb_trans; eauto]|exists p; split; [right; auto | auto]].
    + intros s (p & [<-|I] & E'); [exists q; split; [left; auto|eapply expr_eqb_trans; [eauto|now rewrite expr_eqb_sym]]|exists p; split; [right; auto | auto]].
    + intros q' I. eapply eqb_false_l; [exact E|]. apply H; auto.
    + apply H.
  - destruct (IH i N E) as (K1 & K2 & D). split; [|split; [|intros H; split]].
    + intros s (p' & [<-|I] & E'); [exists p; split; [left; auto | auto]|].
      destruct (K1 s) as (p'' & ? & ?); [exists p'; auto|]. exists p''; split; [right; auto | auto].
    + intros s (p' & [<-|I] & E'); [exists p; split; [left; auto | auto]|].
      destruct (K2 s) as (p'' & ? & ?); [exists p'; auto|]. exists p''; split; [right; auto | auto].
    + intros q' I. destruct (K2 (fst q')) as (p'' & I' & E'); [exists q'; split; auto using expr_eqb_refl|].
      destruct (expr_eqb (fst p) (fst q')) eqn:X; auto.
      destruct H as [H _]. rewrite <- (H p'' I'). symmetry. eapply expr_eqb_trans; eauto.
    + apply D, H.
Qed.

Lemma distinct_snoc c x : distinct c -> (forall p, In p c -> expr_eqb (fst p) (fst x) = false) ->
  distinct (c ++ [x]).
Proof.
  induction c; simpl; intros D N; [split; [intros ? []|auto]|].
  destruct D as [D1 D2]. split; [|apply IHc; auto].
  intros q I. apply in_app_iff in I as [I|[<-|[]]]; auto.
Qed.

Lemma find_common_inv e : forall c, distinct c -> closed_upto (size e) c -> is_expr e = true ->
  let c' := find_common e c in
  distinct c' /\ keeps c c' /\ all_covered c' e /\
  (forall p, In p c' -> In p c \/ (exists q, In q c /\ expr_eqb (fst p) (fst q) = true) \/ size (fst p) <= size e) /\
  (forall n, size e <= n -> closed_upto n c -> closed_upto n c').
Proof.
  induction e using expr_ind'; intros c D CL X; [discriminate|].
  cbn zeta. cbn [find_common].
  set (e := Node k t args) in *.
  destruct (find_index (fun p => expr_eqb e (fst p)) c) as [i|] eqn:F.
  - apply find_index_some in F as (q & NQ & EQ).
    destruct (set_nth_props i (e, S (snd (nth i c (e, O)))) c q NQ) as (K1 & K2 & DD);
      [simpl; now rewrite expr_eqb_sym|].
    assert (AC : all_covered c e).
    { eapply all_covered_eqb; [exact EQ|]. apply CL; [eapply nth_error_In; eauto|].
      now rewrite (eqb_size _ _ EQ). }
    split; [|split; [|split; [|split]]]; auto.
    + eapply keeps_all; eauto.
    + intros p I. apply In_set_nth in I as [->|I]; auto.
    + intros n Hn C p I Hs. apply In_set_nth in I as [->|I]; eapply keeps_all; try exact K1; [exact AC | apply C; auto].
  - pose proof (find_index_none _ _ _ F) as NF. cbn beta in NF.
    set (c0 := c ++ [(e, 1)]).
    assert (D0 : distinct c0).
    { apply distinct_snoc; auto. intros p I. simpl. rewrite expr_eqb_sym. auto. }
    assert (K0 : keeps c c0).
    { intros s (p & I & E). exists p. split; auto. apply in_app_iff; auto. }
    assert (E0 : covered c0 e).
    { exists (e, 1). split; [apply in_app_iff; right; left; auto | apply expr_eqb_refl]. }
    assert (C0 : closed_upto (size e - 1) c0).
    { intros p I Hs. apply in_app_iff in I as [I|[<-|[]]].
      - eapply keeps_all; [exact K0|]. apply CL; auto. lia.
      - simpl in Hs. lia. }
    (* process the arguments *)
    assert (G : forall l acc, Forall (fun e => forall c, distinct c -> closed_upto (size e) c -> is_expr e = true ->
        let c' := find_common e c in
        distinct c' /\ keeps c c' /\ all_covered c' e /\
        (forall p, In p c' -> In p c \/ (exists q, In q c /\ expr_eqb (fst p) (fst q) = true) \/ size (fst p) <= size e) /\
        (forall n, size e <= n -> closed_upto n c -> closed_upto n c')) l ->
        (forall a, In a l -> In a args) ->
        distinct acc -> closed_upto (size e - 1) acc ->
        let r := (fix go (l : list expr) (acc : list (expr * nat)) :=
                    match l with [] => acc | a :: r => go r (find_common a acc) end) l acc in
        distinct r /\ keeps acc r /\ closed_upto (size e - 1) r /\
        (forall a, In a l -> all_covered r a) /\
        (forall p, In p r -> In p acc \/ (exists q, In q acc /\ expr_eqb (fst p) (fst q) = true) \/ size (fst p) <= size e - 1)).
    { induction l as [|a l IHl]; intros acc HF IN DA CA; cbn zeta.
      - split; [auto|split; [intros s Z; auto|split; [auto|split; [intros ? []|auto]]]].
      - inversion HF as [|? ? Ha HF']; subst.
        destruct (is_expr a) eqn:Xa.
        + assert (SZa : size a <= size e - 1).
          { pose proof (size_arg k t args a (IN a (or_introl eq_refl))). fold e in H0. lia. }
          destruct (Ha acc DA) as (D1 & K1 & A1 & P1 & C1); auto.
          { intros p I Hs. apply CA; auto. lia. }
          destruct (IHl (find_common a acc)) as (D2 & K2 & C2 & A2 & P2); auto.
          { intros; apply IN; right; auto. }
          split; [auto|split; [|split; [auto|split]]].
          * intros s Z; auto.
          * intros b [->|Ib]; auto. eapply keeps_all; eauto.
          * intros p I. destruct (P2 p I) as [I1|[(q & I1 & E1)|I1]]; auto.
            -- destruct (P1 p I1) as [|[|]]; auto. right; right; lia.
            -- destruct (P1 q I1) as [I2|[(q' & I2 & E2)|I2]].
               ++ right; left; eauto.
               ++ right; left. exists q'. split; auto. eapply expr_eqb_trans; eauto.
               ++ right; right. rewrite (eqb_size _ _ E1). lia.
        + destruct a; [|discriminate]. cbn [find_common].
          destruct (IHl acc) as (D2 & K2 & C2 & A2 & P2); auto.
          { intros; apply IN; right; auto. }
          split; [auto|split; [auto|split; [auto|split; [|auto]]]].
          intros b [<-|Ib]; auto. intros s S' X'. inversion S'; subst. discriminate. }
    destruct (G args c0) as (D1 & K1 & C1 & A1 & P1); auto.
    fold c0. set (r := (fix go (l : list expr) (acc : list (expr * nat)) :=
                    match l with [] => acc | a :: r => go r (find_common a acc) end) args c0) in *.
    assert (AE : all_covered r e).
    { intros s S' X'. apply sub_node_inv in S' as [->|(a & Ia & S')]; [apply K1; exact E0|].
      apply (A1 a Ia s S' X'). }
    split; [auto|split; [intros s Z; apply K1, K0, Z|split; [auto|split]]].
    + intros p I. destruct (P1 p I) as [I1|[(q & I1 & E1)|I1]].
      * apply in_app_iff in I1 as [I1|[<-|[]]]; auto.
      * apply in_app_iff in I1 as [I1|[<-|[]]]; [right; left; eauto|].
        right; right. rewrite (eqb_size _ _ E1). simpl; lia.
      * right; right; lia.
    + intros n Hn CN p I Hs.
      destruct (le_lt_dec (size (fst p)) (size e - 1)) as [L|L]; [apply C1; auto|].
      assert (Z : exists q, (In q c \/ fst q = e) /\ expr_eqb (fst p) (fst q) = true).
      { destruct (P1 p I) as [I1|[(q & I1 & E1)|I1]].
        - exists p. split; [|apply expr_eqb_refl]. apply in_app_iff in I1 as [I1|[<-|[]]]; auto.
        - exists q. split; auto. apply in_app_iff in I1 as [I1|[<-|[]]]; auto.
        - lia. }
      destruct Z as (q & [I1|I1] & E1).
      * eapply all_covered_eqb; [exact E1|]. apply keeps_all with (c := c); [intros s Z; apply K1, K0, Z|].
        apply CN; auto. now rewrite <- (eqb_size _ _ E1).
      * eapply all_covered_eqb; [exact E1|]. rewrite I1. exact AE.
Qed.

Lemma distinct_filter_pairwise c : distinct c ->
  forall i j a b, nth_error (filter is_choose (map fst c)) i = Some a ->
    nth_error (filter is_choose (map fst c)) j = Some b -> expr_eqb a b = true -> i = j.
Proof.
  induction c as [|p c IH]; simpl; intros D i j a b; [destruct i; discriminate|].
  destruct D as [D1 D2].
  destruct (is_choose (fst p)); [|apply IH; auto].
  assert (NI : forall m x, nth_error (filter is_choose (map fst c)) m = Some x ->
               expr_eqb (fst p) x = false).
  { intros m x Hx. apply nth_error_In in Hx. apply filter_In in Hx as [Hx _].
    apply in_map_iff in Hx as (q & <- & Hq). auto. }
  destruct i as [|i], j as [|j]; simpl; intros Ha Hb E; auto.
  - injection Ha as <-. rewrite (NI _ _ Hb) in E. discriminate.
  - injection Hb as <-. rewrite expr_eqb_sym, (NI _ _ Ha) in E. discriminate.
  - f_equal. eauto.
Qed.

(** every choice occurring in the body is shared, under exactly one index *)
Theorem shared_exactly_once body : is_expr body = true ->
  forall s, subexpr s body -> is_choose s = true ->
  exists i c, nth_error (shared_of body) i = Some c /\ expr_eqb c s = true /\
    forall j c', nth_error (shared_of body) j = Some c' -> expr_eqb c' s = true -> j = i.
Proof.
  intros X s S C.
  destruct (find_common_inv body [] Logic.I) as (D & _ & A & _ & _); auto.
  { intros p []. }
  destruct (A s S) as (p & Ip & Ep). { destruct s; auto; discriminate. }
  assert (Cp : is_choose (fst p) = true).
  { destruct s as [|ks ts as_], (fst p) as [|kp tp ap]; try discriminate.
    simpl in Ep. apply andb_true_iff in Ep as [Ek _]. apply kind_eqb_eq in Ek. subst.
    destruct kp; try discriminate; auto. }
  assert (In (fst p) (shared_of body)).
  { apply filter_In. split; auto. apply in_map; auto. }
  apply In_nth_error in H as (i & Hi).
  exists i, (fst p). split; auto. split; [now rewrite expr_eqb_sym|].
  intros j c' Hj Ej. eapply (distinct_filter_pairwise _ D); eauto.
  eapply expr_eqb_trans; eauto.
Qed.

(* ------------------------------------------------------------------ *)
(** * Pruning *)

(** specification: the meaning of a call into a table of definitions, by
    unfolding at most [n] levels *)
Fixpoint bind_params (ps : list expr) (vs : list val) : option env :=
  match ps, vs with
  | [], [] => Some (fun _ => None)
  | Node KVar _ [Atom (PStr x)] :: ps', v :: vs' =>
      match bind_params ps' vs' with Some r => Some (upd r x v) | None => None end
  | _, _ => None
  end.

Fixpoint table_call (base : interp) (fns : dict fndef) (n : nat) (f : string) (vs : list val)
  : option val :=
  match n with
  | O => None
  | S m =>
      match dget fns f with
      | Some d =>
          match bind_params (fn_params d) vs with
          | Some r => eval {| i_div := i_div base; i_mod := i_mod base;
                              i_call := table_call base fns m |} r (fn_body d)
          | None => None
          end
      | None => i_call base f vs
      end
  end.

Definition table_interp base fns n : interp :=
  {| i_div := i_div base; i_mod := i_mod base; i_call := table_call base fns n |}.

Definition interp_le (I J : interp) : Prop :=
  i_div I = i_div J /\ i_mod I = i_mod J /\
  forall f vs v, i_call I f vs = Some v -> i_call J f vs = Some v.

Lemma op_val_le I J k vs : interp_le I J -> forall v, op_val I k vs = Some v -> op_val J k vs = Some v.
Proof.
  intros (E1 & E2 & E3) v. destruct k; simpl; auto; rewrite ?E1, ?E2; auto.
  destruct vs as [|[]]; auto.
Qed.

Lemma mapO_mono (f g : expr -> option val) l : Forall (fun a => forall v, f a = Some v -> g a = Some v) l ->
  forall vs, mapO f l = Some vs -> mapO g l = Some vs.
Proof.
  induction 1; simpl; auto. intros vs.
  destruct (f x) eqn:E; [|discriminate]. rewrite (H _ eq_refl).
  destruct (mapO f l) eqn:E'; [|discriminate]. now rewrite (IHForall _ eq_refl).
Qed.

Lemma eval_le I J e : interp_le I J -> forall r v, eval I r e = Some v -> eval J r e = Some v.
Proof.
  intros L. induction e using expr_ind'; intros r v; [discriminate|].
  assert (GEN : match mapO (eval I r) args with Some vs => op_val I k vs | None => None end = Some v ->
                match mapO (eval J r) args with Some vs => op_val J k vs | None => None end = Some v).
  { destruct (mapO (eval I r) args) eqn:E; [|discriminate].
    rewrite (mapO_mono (eval I r) (eval J r) args) with (vs := l); auto.
    - now apply (op_val_le I J).
    - eapply Forall_impl; [|exact H]. intros a Ha w. apply Ha. }
  destruct k; try exact GEN; auto.
  - (* Ite *)
    simpl. destruct args as [|c [|a [|b [|]]]]; auto.
    inversion H as [|? ? Hc H1]; subst. inversion H1 as [|? ? Ha H2]; subst.
    inversion H2 as [|? ? Hb ?]; subst.
    destruct (eval I r c) eqn:E; [|discriminate]. rewrite (Hc _ _ E).
    destruct v0 as [|[]| | |]; auto.
  - (* Let *)
    simpl. destruct args as [|c [|a [|b [|]]]]; try (intros; congruence); try (destruct c as [|[] ? [|[[]|] [|]]]; intros; congruence).
    inversion H as [|? ? Hc H1]; subst. inversion H1 as [|? ? Ha H2]; subst.
    inversion H2 as [|? ? Hb ?]; subst.
    destruct c as [|[] ? [|[[]|] [|]]]; auto.
    destruct (eval I r a) eqn:E; [|discriminate]. rewrite (Ha _ _ E). auto.
  - (* Call *)
    simpl. destruct args as [|[[]|] rest]; auto.
    inversion H as [|? ? _ H1]; subst.
    destruct (mapO (eval I r) rest) eqn:E; [|discriminate].
    rewrite (mapO_mono (eval I r) (eval J r) rest) with (vs := l); auto.
    + apply L. + eapply Forall_impl; [|exact H1]. intros a Ha w. apply Ha.
  - simpl. destruct args as [|[[]|] rest]; auto.
    inversion H as [|? ? _ H1]; subst.
    destruct (mapO (eval I r) rest) eqn:E; [|discriminate].
    rewrite (mapO_mono (eval I r) (eval J r) rest) with (vs := l); auto.
    + apply L. + eapply Forall_impl; [|exact H1]. intros a Ha w. apply Ha.
Qed.

(** unfolding further never changes a result *)
Lemma table_call_mono base fns n : forall m, n <= m ->
  forall f vs v, table_call base fns n f vs = Some v -> table_call base fns m f vs = Some v.
Proof.
  induction n; intros m L f vs v; [discriminate|].
  destruct m; [lia|]. cbn [table_call]. destruct (dget fns f); auto.
  destruct (bind_params (fn_params f0) vs); auto. apply eval_le.
  repeat split; auto. intros g ws w. apply IHn. lia.
Qed.

(** a literal equal (in the sense of Python) to [BoolLit b] does not denote the
    other truth value *)
Lemma lit_eq_value I r e b v : expr_eqb e (BoolLit b) = true -> eval I r e = Some v ->
  v <> VBool (negb b).
Proof.
  unfold BoolLit, mkLit. destruct e as [|k t args]; [discriminate|]. cbn [expr_eqb].
  rewrite andb_true_iff, kind_eqb_eq. intros [-> E].
  destruct args as [|[x|] [|]]; try discriminate E; simpl in E; rewrite ?andb_true_r, ?andb_false_r in E;
    try discriminate.
  simpl. destruct t; try discriminate; destruct x; simpl in *; try discriminate; intros [= <-].
  - discriminate.
  - apply Z.eqb_eq in E. subst. destruct b; discriminate.
  - apply Bool.eqb_prop in E. subst. destruct b; discriminate.
Qed.

Lemma wf_rebuild k t args : wf (Node k t args) -> rebuild k t args = Ok (Node k t args).
Proof.
  intros W. pose proof (map_args_id W) as M. simpl in M.
  destruct (mapR (fun a => Ok a) args) as [l|] eqn:E; [|discriminate]. cbn [bindR] in M.
  assert (l = args).
  { apply mapR_ok_inv in E. clear -E. induction E; auto. injection H as ->. congruence. }
  subst. exact M.
Qed.

Lemma wf_ite_inv t args : wf (Node KIte t args) -> exists c a b, args = [c; a; b] /\
  wf c /\ wf a /\ wf b /\ type_of c = Ok TBool /\ type_of a = Ok t /\ type_of b = Ok t.
Proof.
  intros W. pose proof (wf_rebuild _ _ _ W) as R. pose proof (wf_args W) as WA.
  cbn [rebuild] in R. unfold mkIte in R.
  destruct args as [|c [|a [|b [|]]]]; try discriminate.
  inversion WA as [|? ? Wc W1]; subst. inversion W1 as [|? ? Wa W2]; subst.
  inversion W2 as [|? ? Wb ?]; subst.
  exists c, a, b. split; auto.
  destruct Wc as [Wc|[x ->]]; [|discriminate]. destruct (type_of c) as [tc|]; [|discriminate].
  cbn [bindR] in R. destruct (ty_eqb tc TBool) eqn:Ec; [|discriminate]. cbn [negb] in R.
  destruct Wa as [Wa|[x ->]]; [|discriminate]. destruct (type_of a) as [ta|]; [|discriminate].
  cbn [bindR] in R.
  destruct Wb as [Wb|[x ->]]; [|discriminate]. destruct (type_of b) as [tb|]; [|discriminate].
  cbn [bindR] in R. destruct (ty_eqb ta tb) eqn:Et; [|discriminate]. injection R as ->.
  apply ty_eqb_eq in Ec. apply ty_eqb_eq in Et. subst. repeat split; auto.
Qed.

Section Prune.
  Variable I : interp.
  Variable fns : dict fndef.
  (** a call to a constant function of the table has no other truth value *)
  Hypothesis const_calls : forall f d b vs v, dget fns f = Some d ->
    expr_eqb (fn_body d) (BoolLit b) = true -> i_call I f vs = Some v -> v <> VBool (negb b).

  Definition pruned_ok (e e' : expr) : Prop :=
    wf e' /\ type_of e' = type_of e /\ arg_ref I e e'.

  Definition prune_spec (e : expr) : Prop := wf e ->
    (exists e', prune_ite fns e = Ok e' /\ pruned_ok e e') /\
    (exists e', map_args (prune_ite fns) e = Ok e' /\ pruned_ok e e').

  Lemma pruned_node k t args : wf (Node k t args) -> Forall prune_spec args ->
    exists args', mapR (prune_ite fns) args = Ok args' /\
      rebuild k t args' = Ok (Node k t args') /\ pruned_ok (Node k t args) (Node k t args').
  Proof.
    intros W HF.
    destruct (@map_args_wf (prune_ite fns) k t args W (fun a => eq_refl)) as (args' & M & A & R & W').
    { eapply Forall_impl; [|exact HF]. intros a Ha Wa. destruct (Ha Wa) as [(e' & E & W' & T & _) _]. eauto. }
    exists args'. split; auto. split; auto. split; auto. split; auto.
    assert (F2 : Forall2 (arg_ref I) args args').
    { apply mapR_ok_inv in M. pose proof (wf_args W) as WA. clear -M WA HF.
      induction M; auto. inversion HF; subst. inversion WA; subst. constructor; auto.
      destruct H4 as [Wx|[z ->]].
      - destruct (H2 Wx) as [(e' & E & _ & _ & X) _]. rewrite H in E. injection E as ->. auto.
      - simpl in H. injection H as <-. simpl; auto. }
    split; [now apply eval_cong|].
    destruct k; auto. destruct args as [|[[]|] [|]]; auto.
    inversion F2; subst. inversion H3; subst. destruct y; simpl in *; try tauto. subst. eauto.
  Qed.

  Lemma prune_all e : prune_spec e.
  Proof.
    induction e using expr_ind'; intros W; [now apply wf_not_atom in W|].
    destruct (pruned_node k t args W H) as (args' & M & R & OK).
    assert (MA : exists e', map_args (prune_ite fns) (Node k t args) = Ok e' /\ pruned_ok (Node k t args) e').
    { exists (Node k t args'). simpl. rewrite M. cbn [bindR]. auto. }
    split; [|exact MA].
    assert (SAME : exists e', (args' <- mapR (prune_ite fns) args;; rebuild k t args') = Ok e' /\ pruned_ok (Node k t args) e').
    { exists (Node k t args'). rewrite M. cbn [bindR]. auto. }
    assert (SELF : pruned_ok (Node k t args) (Node k t args)).
    { split; auto. split; auto. apply arg_ref_refl. }
    destruct k; try exact SAME; try (eexists; split; [reflexivity | exact SELF]).
    cbn [prune_ite].
    destruct (wf_ite_inv _ _ W) as (c & a & b & -> & Wc & Wa & Wb & Tc & Ta & Tb).
    inversion H as [|? ? Hc H1]; subst. inversion H1 as [|? ? Ha H2]; subst.
    inversion H2 as [|? ? Hb ?]; subst. clear H H1 H2.
    destruct (Hc Wc) as [_ (c' & Mc & Wc' & Tc' & Ac)].
    destruct (Ha Wa) as [_ (a' & Ma & Wa' & Ta' & Aa)].
    destruct (Hb Wb) as [_ (b' & Mb & Wb' & Tb' & Ab)].
    destruct (wf_atom_node Wc) as (kc & tc & cargs & ->).
    destruct (wf_atom_node Wa) as (ka & ta & aargs & ->).
    destruct (wf_atom_node Wb) as (kb & tb & bargs & ->).
    cbn [map_args] in Mc, Ma, Mb. rewrite Mc. cbn [bindR]. rewrite Ma, Mb.
    (* taking the then (else) branch is right when the condition is never false (true) *)
    assert (THEN : (forall r v, eval I r (Node kc tc cargs) = Some v -> v <> VBool false) ->
       exists e', Ok a' = Ok e' /\ pruned_ok (Node KIte t [Node kc tc cargs; Node ka ta aargs; Node kb tb bargs]) e').
    { intros NF. exists a'. split; auto. split; auto. split; [rewrite Ta'; exact Ta|].
      destruct a'; [now apply wf_not_atom in Wa'|]. split; auto. intros r v E.
      assert (E' : match eval I r (Node kc tc cargs) with
                   | Some (VBool true) => eval I r (Node ka ta aargs)
                   | Some (VBool false) => eval I r (Node kb tb bargs) | _ => None end = Some v) by exact E.
      clear E. destruct (eval I r (Node kc tc cargs)) as [w|] eqn:Ew; [|discriminate].
      destruct w as [|[]| | |]; try discriminate.
      - exact (arg_ref_refines _ _ _ Aa r E').
      - exfalso. eapply NF; [exact Ew | reflexivity]. }
    assert (ELSE : (forall r v, eval I r (Node kc tc cargs) = Some v -> v <> VBool true) ->
       exists e', Ok b' = Ok e' /\ pruned_ok (Node KIte t [Node kc tc cargs; Node ka ta aargs; Node kb tb bargs]) e').
    { intros NF. exists b'. split; auto. split; auto. split; [rewrite Tb'; exact Tb|].
      destruct b'; [now apply wf_not_atom in Wb'|]. split; auto. intros r v E.
      assert (E' : match eval I r (Node kc tc cargs) with
                   | Some (VBool true) => eval I r (Node ka ta aargs)
                   | Some (VBool false) => eval I r (Node kb tb bargs) | _ => None end = Some v) by exact E.
      clear E. destruct (eval I r (Node kc tc cargs)) as [w|] eqn:Ew; [|discriminate].
      destruct w as [|[]| | |]; try discriminate.
      - exfalso. eapply NF; [exact Ew | reflexivity].
      - exact (arg_ref_refines _ _ _ Ab r E'). }
    destruct (expr_eqb c' (BoolLit true)) eqn:B1.
    { apply THEN. intros r v E. apply (arg_ref_refines _ _ _ Ac) in E.
      exact (lit_eq_value I r c' true v B1 E). }
    destruct (expr_eqb c' (BoolLit false)) eqn:B2.
    { apply ELSE. intros r v E. apply (arg_ref_refines _ _ _ Ac) in E.
      exact (lit_eq_value I r c' false v B2 E). }
    assert (CALL : forall f tc1 rest, (c' = Node KCall tc1 (Atom (PStr f) :: rest) \/
                                       c' = Node KTargetCall tc1 (Atom (PStr f) :: rest)) ->
       exists e', match dget fns f with
         | Some d => if expr_eqb (fn_body d) (BoolLit true) then Ok a'
                     else if expr_eqb (fn_body d) (BoolLit false) then Ok b'
                     else args'0 <- mapR (prune_ite fns) [Node kc tc cargs; Node ka ta aargs; Node kb tb bargs];; rebuild KIte t args'0
         | None => args'0 <- mapR (prune_ite fns) [Node kc tc cargs; Node ka ta aargs; Node kb tb bargs];; rebuild KIte t args'0
         end = Ok e' /\ pruned_ok (Node KIte t [Node kc tc cargs; Node ka ta aargs; Node kb tb bargs]) e').
    { intros f tc1 rest Hc1. destruct (dget fns f) as [d|] eqn:Df; [|exact SAME].
      assert (K : forall b, expr_eqb (fn_body d) (BoolLit b) = true ->
                  forall r v, eval I r (Node kc tc cargs) = Some v -> v <> VBool (negb b)).
      { intros b0 B0 r v E. apply (arg_ref_refines _ _ _ Ac) in E.
        assert (E' : match mapO (eval I r) rest with Some vs => i_call I f vs | None => None end = Some v)
          by (destruct Hc1; subst c'; exact E).
        destruct (mapO (eval I r) rest) as [vs|]; [|discriminate].
        eapply const_calls; eauto. }
      destruct (expr_eqb (fn_body d) (BoolLit true)) eqn:D1; [apply THEN, (K true D1)|].
      destruct (expr_eqb (fn_body d) (BoolLit false)) eqn:D2; [apply ELSE, (K false D2)|].
      exact SAME. }
    destruct c' as [|[] ? [|[[f| | |]|] rest]]; try exact SAME; eapply CALL; eauto.
  Qed.
End Prune.

(** entries of a mapped table *)
Lemma mapR_dict_get (fns fns' : dict fndef) (g : fndef -> res fndef) :
  mapR (fun p => d <- g (snd p) ;; Ok (fst p, d)) fns = Ok fns' ->
  forall f, match dget fns f with
            | Some d => exists d', g d = Ok d' /\ dget fns' f = Some d'
            | None => dget fns' f = None
            end.
Proof.
  revert fns'. induction fns as [|[x d] fns IH]; intros fns' E f; simpl in E.
  - injection E as <-. reflexivity.
  - destruct (g d) as [d'|] eqn:G; cbn [bindR] in E; [|discriminate].
    destruct (mapR _ fns) as [r|] eqn:M; cbn [bindR] in E; [|discriminate].
    injection E as <-. specialize (IH r eq_refl f). simpl.
    destruct (String.eqb f x); eauto.
Qed.

(** a table built from function declarations: parameters are variables, bodies
    constructible *)
Definition table_wf (fns : dict fndef) : Prop :=
  forall f d, dget fns f = Some d ->
    wf (fn_body d) /\ Forall (fun p => exists x t, p = mkVar x t) (fn_params d).

Lemma prune_params fns ps : Forall (fun p => exists x t, p = mkVar x t) ps ->
  mapR (prune_ite fns) ps = Ok ps.
Proof.
  induction 1; simpl; auto. destruct H as (y & t & ->). simpl. now rewrite IHForall.
Qed.

Theorem prune_refines base fns fns' : table_wf fns -> prune_fn_decls fns = Ok fns' ->
  forall n f vs v, table_call base fns n f vs = Some v -> table_call base fns' n f vs = Some v.
Proof.
  intros WF P. unfold prune_fn_decls in P. pose proof (mapR_dict_get _ _ _ P) as D.
  induction n; intros f vs v; [discriminate|].
  cbn [table_call]. specialize (D f). destruct (dget fns f) as [d|] eqn:Df.
  - destruct D as (d' & G & ->). destruct (WF f d Df) as [Wb Wp].
    unfold prune_fn in G.
    destruct (prune_all (table_interp base fns n) fns) with (e := fn_body d) as [(b' & Eb & _ & _ & A) _]; auto.
    { intros g dg b ws w Dg Bg C. destruct n; [discriminate|]. cbn [table_interp i_call table_call] in C.
      rewrite Dg in C. destruct (bind_params (fn_params dg) ws); [|discriminate].
      eapply lit_eq_value; eauto. }
    rewrite Eb in G. cbn [bindR] in G. rewrite prune_params in G by auto. cbn [bindR] in G.
    injection G as <-. cbn [fn_params fn_body].
    destruct (bind_params (fn_params d) vs); [|discriminate]. intros E.
    apply (arg_ref_refines _ _ _ A) in E.
    eapply eval_le; [|exact E]. split; [reflexivity|]. split; [reflexivity|]. exact IHn.
  - rewrite D. auto.
Qed.

Theorem prune_total fns : (forall f d, In (f, d) fns -> wf (fn_body d) /\
    Forall (fun p => exists x t, p = mkVar x t) (fn_params d)) ->
  exists fns', prune_fn_decls fns = Ok fns'.
Proof.
  intros WF. unfold prune_fn_decls.
  assert (G : forall l : dict fndef, (forall f d, In (f, d) l -> wf (fn_body d) /\
       Forall (fun p => exists x t, p = mkVar x t) (fn_params d)) ->
     exists l', mapR (fun p => d <- prune_fn fns (snd p) ;; Ok (fst p, d)) l = Ok l').
  { induction l as [|[f d] l IH]; intros H; [eexists; reflexivity|].
    destruct IH as (l' & E); [intros; eapply H; right; eauto|].
    destruct (H f d (or_introl eq_refl)) as [Wb Wp].
    destruct (prune_all {| i_div := fun _ _ => None; i_mod := fun _ _ => None; i_call := fun _ _ => None |} fns)
      with (e := fn_body d) as [(b' & Eb & _) _]; auto; [discriminate|].
    simpl. unfold prune_fn at 1. rewrite Eb. cbn [bindR]. rewrite prune_params by auto. cbn [bindR].
    rewrite E. cbn [bindR]. eauto. }
  apply G, WF.
Qed.
