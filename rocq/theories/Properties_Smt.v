(** Properties C21 and C22: the SMT prelude. *)

From Coq Require Import ZArith List Bool Lia.
From Verif Require Import SmtPrelude SmtProofs.
Import ListNotations.
Local Open Scope Z_scope.

(** ** C21 *)

(** Full statement (false): the prelude has a model, [exists I, prelude I].
    [matrix_transpose] recurses on [rests m], which has as many rows as [m], so
    its defining equation asks for an infinite list. *)
Theorem C21_prelude_consistent_refuted : ~ exists I, prelude I.
Proof. intros (I & C & T). exact (no_transpose I C T). Qed.
Print Assumptions C21_prelude_consistent_refuted.

(** The equation is already unsatisfiable at every single non-empty matrix: no
    interpretation satisfies it on the matrices reached from [m]. *)
Theorem C21_every_matrix_refuted : forall I m, prelude_core I -> m <> [] ->
  ~ (forall k, let m' := Nat.iter k (s_rests I) m in
       s_transpose I m' =
         if s_length (lm I) m' <? 1 then []
         else list_prepend (s_firsts I m') (s_transpose I (s_rests I m'))).
Proof.
  intros I m C NE T.
  assert (N : forall k, Nat.iter k (s_rests I) m <> []).
  { induction k; simpl; auto. intros E. apply (f_equal (@length _)) in E.
    rewrite (rests_length I C) in E. destruct (Nat.iter k (s_rests I) m); [auto | discriminate]. }
  assert (G : forall n k, (n <= length (s_transpose I (Nat.iter k (s_rests I) m)))%nat).
  { induction n; intros k; [lia|]. rewrite (T k).
    destruct (Nat.iter k (s_rests I) m) as [|r m'] eqn:E; [now apply N in E|].
    rewrite (mlen_cons I C). unfold list_prepend. cbn [length]. apply le_n_S.
    rewrite <- E. apply (IHn (S k)). }
  specialize (G (S (length (s_transpose I m))) O). simpl in G. lia.
Qed.
Print Assumptions C21_every_matrix_refuted.

(** Consequence: whatever the verification condition is, the query [prelude and
    not vc] has no model, so "unsat" says nothing about the condition. *)
Theorem C21_query_unsat_refuted : forall vc : smt -> Prop, ~ exists I, prelude I /\ ~ vc I.
Proof. intros vc (I & (C & T) & _). exact (no_transpose I C T). Qed.
Print Assumptions C21_query_unsat_refuted.

(** What holds: without the definition of [matrix_transpose] it is consistent. *)
Theorem C21_prelude_consistent_partial : exists I, prelude_core I.
Proof. exists std. exact std_core. Qed.
Print Assumptions C21_prelude_consistent_partial.

(** ** C22 *)

(** In every model of the prelude without [matrix_transpose] the functions are
    the usual ones. [list_get] is fixed for all indices below the length
    (negative ones give the first element). *)
Theorem C22_list_functions_partial : forall I, prelude_core I ->
  (forall l, s_length (li I) l = Z.of_nat (length l)) /\
  (forall l v, s_append (li I) l v = l ++ [v]) /\
  (forall l i d, i < Z.of_nat (length l) -> l <> [] -> list_get I l i = nth (Z.to_nat i) l d) /\
  (forall l i, s_ltail (li I) l i = skipn (Z.to_nat i) l) /\
  (forall l i, s_take (li I) l i = firstn (Z.to_nat i) l) /\
  (forall xs ys, s_concat I xs ys = xs ++ ys) /\
  (forall l v, s_contains I l v = true <-> In v l) /\
  (forall l st en, vec_slice I l st en = skipn (Z.to_nat st) (firstn (Z.to_nat en) l)) /\
  (forall l st n, vec_slice_with_length I l st n = skipn (Z.to_nat st) (firstn (Z.to_nat (st + n)) l)).
Proof.
  intros I C. pose proof (core_li I C) as HI.
  split; [apply (length_is _ HI)|]. split; [apply (append_is _ HI)|].
  split; [intros; now apply (get_is _ HI)|]. split; [apply (ltail_is _ HI)|].
  split; [apply (take_is _ HI)|]. split; [apply (concat_is I C)|].
  split; [|split; intros; apply (vec_slice_is I C)].
  intros l v. rewrite (contains_is I C), existsb_exists. split.
  - intros (x & IN & E). apply Z.eqb_eq in E. now subst.
  - intros IN. exists v. split; auto. apply Z.eqb_refl.
Qed.
Print Assumptions C22_list_functions_partial.

(** The same for the functions on matrices. *)
Theorem C22_matrix_functions_partial : forall I, prelude_core I ->
  (forall m, s_length (lm I) m = Z.of_nat (length m)) /\
  (forall m r, s_append (lm I) m r = m ++ [r]) /\
  (forall m i d, i < Z.of_nat (length m) -> m <> [] -> matrix_get I m i = nth (Z.to_nat i) m d) /\
  (forall m i, s_ltail (lm I) m i = skipn (Z.to_nat i) m) /\
  (forall m i, s_take (lm I) m i = firstn (Z.to_nat i) m) /\
  (forall m st en, matrix_row_slice I m st en = skipn (Z.to_nat st) (firstn (Z.to_nat en) m)) /\
  (forall m st en, s_col_slice I m st en = map (fun r => skipn (Z.to_nat st) (firstn (Z.to_nat en) r)) m) /\
  (forall m st n, s_col_slice_len I m st n = map (fun r => skipn (Z.to_nat st) (firstn (Z.to_nat (st + n)) r)) m) /\
  (forall m d, Forall (fun r => r <> []) m -> s_firsts I m = map (fun r => hd d r) m) /\
  (forall m n, Forall (fun r => length r = n) m -> s_rests I m = map (skipn 1) m).
Proof.
  intros I C. pose proof (core_lm I C) as HM. pose proof (core_li I C) as HI.
  split; [apply (length_is _ HM)|]. split; [apply (append_is _ HM)|].
  split; [intros; now apply (get_is _ HM)|]. split; [apply (ltail_is _ HM)|].
  split; [apply (take_is _ HM)|]. split; [apply (row_slice_is I C)|].
  split; [apply (col_slice_is I C)|].
  split; [intros; rewrite (ax_col_slice_len I C); apply (col_slice_is I C)|]. split.
  - intros m d F. rewrite (firsts_is I C). apply map_ext_in. intros r IN.
    rewrite Forall_forall in F. specialize (F r IN). destruct r; [congruence|]. apply (get0 I C).
  - intros m n F. rewrite (rests_is I C). destruct m as [|r m]; [reflexivity|].
    apply map_ext_in. intros r' IN. f_equal. rewrite Forall_forall in F.
    rewrite (F r (or_introl eq_refl)), <- (F r' IN). apply firstn_all.
Qed.
Print Assumptions C22_matrix_functions_partial.

(** the definitional part of the assertions about lists *)
Record lax_def {T : Type} (S : lsyms T) : Prop := {
  d_head : forall h t, s_head S (h :: t) = h;
  d_tail : forall h t, s_tail S (h :: t) = t;
  d_length_nil : s_length S [] = 0;
  d_length_cons : forall v l, s_length S (v :: l) = 1 + s_length S l;
  d_append_nil : forall v, s_append S [] v = [v];
  d_append_cons : forall h t v, s_append S (h :: t) v = h :: s_append S t v;
  d_get : forall h t i,
    if i <=? 0 then s_get S (h :: t) i = h else s_get S (h :: t) i = s_get S t (i - 1);
  d_ltail : forall l n, s_ltail S l n = if n <=? 0 then l else s_ltail S (s_tail S l) (n - 1);
  d_take_cons : forall en h t,
    if en <=? 0 then s_take S (h :: t) en = [] else s_take S (h :: t) en = h :: s_take S t (en - 1);
  d_take_nil : forall en, s_take S [] en = [] }.

(** Full statement (false): the redundant assertions follow from the definitions.
    That [list_tail] of [nil] is [nil] does not: the value of the selector
    [tail] on [nil] is unspecified in SMT-LIB. *)
Theorem C22_redundant_refuted : exists S : lsyms Z, lax_def S /\ ~ lax S.
Proof.
  exists {| s_head := hd 0; s_tail := fun l => match l with [] => [7] | _ :: t => t end;
            s_length := fun l => Z.of_nat (length l); s_append := fun l v => l ++ [v];
            s_get := fun l i => nth (Z.to_nat i) l 0;
            s_ltail := fun l i => Nat.iter (Z.to_nat i) (fun l => match l with [] => [7] | _ :: t => t end) l;
            s_take := fun l i => firstn (Z.to_nat i) l |}.
  split.
  - constructor; cbn [s_head s_tail s_length s_append s_get s_ltail s_take]; intros; auto.
    + simpl length. lia.
    + destruct (Z.leb_spec i 0); [now rewrite to_nat_neg by lia | now rewrite to_nat_pos by lia].
    + destruct (Z.leb_spec n 0); [now rewrite to_nat_neg by lia|]. rewrite (to_nat_pos n) by lia.
      cbn [Nat.iter nat_rect]. generalize (Z.to_nat (n - 1)). intros k.
      induction k; [reflexivity|]. cbn [Nat.iter nat_rect] in *. now rewrite IHk.
    + destruct (Z.leb_spec en 0); [now rewrite to_nat_neg by lia | now rewrite (to_nat_pos en) by lia].
    + apply firstn_nil.
  - intros H. pose proof (ax_ltail_nil _ H 1) as E. discriminate.
Qed.
Print Assumptions C22_redundant_refuted.

(** What holds: that one fact is all they add. *)
Theorem C22_redundant_partial : forall T (S : lsyms T), lax S <-> lax_def S /\ s_tail S [] = [].
Proof.
  intros T S. split.
  - intros H. split; [destruct H; constructor; assumption | exact (tail_nil S H)].
  - intros (D & TN).
    assert (LE : forall l, s_length S l = Z.of_nat (length l)).
    { induction l; [apply (d_length_nil S D)|]. rewrite (d_length_cons S D), IHl. simpl length. lia. }
    assert (LT0 : forall n, s_ltail S [] (Z.of_nat n) = []).
    { induction n; rewrite (d_ltail S D); [reflexivity|]. destruct (Z.leb_spec (Z.of_nat (Datatypes.S n)) 0); [lia|].
      rewrite TN. replace (Z.of_nat (Datatypes.S n) - 1) with (Z.of_nat n) by lia. exact IHn. }
    assert (LT : forall n, s_ltail S [] n = []).
    { intros n. destruct (Z.leb_spec n 0); [rewrite (d_ltail S D); destruct (Z.leb_spec n 0); [reflexivity | lia]|].
      replace n with (Z.of_nat (Z.to_nat n)) by lia. apply LT0. }
    assert (TK : forall l n, s_take S l n = firstn (Z.to_nat n) l).
    { induction l as [|h t IH]; intros n; [rewrite (d_take_nil S D), firstn_nil; reflexivity|].
      pose proof (d_take_cons S D n h t) as A. destruct (Z.leb_spec n 0);
        rewrite A; [now rewrite to_nat_neg by lia|]. rewrite IH, (to_nat_pos n) by lia. reflexivity. }
    constructor; try apply D.
    + intros l. rewrite LE. lia.
    + intros st h t. rewrite (d_ltail S D). destruct (st <=? 0); [reflexivity|]. now rewrite (d_tail S D).
    + exact LT.
    + intros st l. rewrite LE. revert st. induction l as [|h t IH]; intros st G; [apply LT|].
      rewrite (d_ltail S D). simpl length in G. destruct (Z.leb_spec st 0); [lia|].
      rewrite (d_tail S D). apply IH. lia.
    + intros en l. rewrite LE, TK. intros G. apply firstn_all2. lia.
    + intros l. rewrite TK. reflexivity.
Qed.
Print Assumptions C22_redundant_partial.

(** The three lemmas at list-axioms.smt:92-106 follow from the definitions. *)
Theorem C22_list_lemmas_partial : forall S (con : list Z -> list Z -> list Z),
  lax S ->
  (forall xs ys, con xs ys = match xs with [] => ys | _ => s_head S xs :: con (s_tail S xs) ys end) ->
  (forall l, con l [] = l) /\
  (forall l i, i >= 0 /\ i < s_length S l -> s_ltail S l i = s_get S l i :: s_ltail S l (i + 1)) /\
  (forall xs y ys, con xs (y :: ys) = con (s_append S xs y) ys).
Proof.
  intros S con H D.
  assert (A : forall xs ys, con xs ys = xs ++ ys).
  { induction xs; intros ys; rewrite D; [reflexivity|]. now rewrite (ax_head S H), (ax_tail S H), IHxs. }
  split; [intros; rewrite A; apply app_nil_r|]. split.
  - intros l i (G & L). rewrite (length_is S H) in L. rewrite !(ltail_is S H).
    rewrite (get_is S H l i 0) by (try lia; intros ->; simpl in L; lia).
    replace (Z.to_nat (i + 1)) with (Datatypes.S (Z.to_nat i)) by lia.
    assert (L' : (Z.to_nat i < length l)%nat) by lia. revert L'. generalize (Z.to_nat i). clear.
    induction l; intros [|i] L; simpl in *; try lia; auto. apply IHl. lia.
  - intros xs y ys. rewrite !A, (append_is S H), <- app_assoc. reflexivity.
Qed.
Print Assumptions C22_list_lemmas_partial.

(** The hypotheses are met by the standard model, in which the functions are not
    trivial. *)
Example C22_nontrivial :
  prelude_core std /\ list_get std [4; 5; 6] 1 = 5 /\ vec_slice std [4; 5; 6; 7] 1 3 = [5; 6] /\
  s_rests std [[1; 2]; [3; 4]] = [[2]; [4]] /\ integer_sqrt std 9 = 2.
Proof. split; [exact std_core|]. vm_compute. auto. Qed.

(** In SMT [list_get] out of range is not determined: two models disagree. *)
Theorem C22_get_out_of_range_refuted :
  exists I1 I2, prelude_core I1 /\ prelude_core I2 /\ list_get I1 [1] 1 <> list_get I2 [1] 1.
Proof.
  pose (I2 := {| li := std_lists 5; lm := lm std; s_concat := s_concat std; s_contains := s_contains std;
    s_col_slice := s_col_slice std; s_col_slice_len := s_col_slice_len std;
    s_firsts := map (fun r => nth 0 r 5); s_rests := s_rests std; s_transpose := s_transpose std;
    s_exp := s_exp std; s_sqrt_helper := s_sqrt_helper std; s_div0 := s_div0 std; s_mod0 := s_mod0 std |}).
  exists std, I2. split; [exact std_core|]. split; [|vm_compute; discriminate].
  pose proof std_core as C.
  constructor; cbn [I2 li lm s_concat s_contains s_col_slice s_col_slice_len s_firsts s_rests s_exp s_sqrt_helper].
  - apply std_lax.
  - apply std_lax.
  - intros [|x xs] ys; reflexivity.
  - intros [|h t] v; [reflexivity|]. exact (ax_contains std C (h :: t) v).
  - exact (ax_concat_nil std C).
  - intros l i L. cbn [li I2] in L. pose proof (ax_tail_get std C l i L) as E. unfold list_get in *. cbn [I2 li].
    cbn [std_lists s_ltail s_get std std_with std_gen li] in *. rewrite E. f_equal. apply nth_indep.
    cbn [std_lists s_length] in L. lia.
  - exact (ax_concat_append std C).
  - exact (ax_col_slice std C).
  - exact (ax_col_slice_len std C).
  - intros [|r m]; [reflexivity|].
    cbn [lm std std_with std_gen std_lists s_firsts s_length s_ltail map].
    destruct (Z.ltb_spec (Z.of_nat (length (r :: m))) 1); [simpl in *; lia|]. reflexivity.
  - exact (ax_rests std C).
  - exact (ax_exp std C).
  - exact (ax_sqrt std C).
Qed.
Print Assumptions C22_get_out_of_range_refuted.
