(** Proofs about the SMT prelude. *)

From Coq Require Import ZArith List Bool Lia.
From Verif Require Import SmtPrelude.
Import ListNotations.
Local Open Scope Z_scope.

(** ** the list functions are determined *)

Section Lists.
  Context {T : Type} (S : lsyms T) (H : lax S).

  Lemma length_is l : s_length S l = Z.of_nat (length l).
  Proof.
    induction l; [apply (ax_length_nil S H)|]. rewrite (ax_length_cons S H), IHl. simpl length. lia.
  Qed.

  Lemma append_is l v : s_append S l v = l ++ [v].
  Proof.
    induction l; [apply (ax_append_nil S H)|]. rewrite (ax_append_cons S H), IHl. reflexivity.
  Qed.

  Lemma get_is l : forall i d, i < Z.of_nat (length l) -> l <> [] -> s_get S l i = nth (Z.to_nat i) l d.
  Proof.
    induction l as [|h t IH]; intros i d L NE; [congruence|].
    pose proof (ax_get S H h t i) as A. destruct (Z.leb_spec i 0).
    - rewrite A. replace (Z.to_nat i) with 0%nat by lia. reflexivity.
    - rewrite A. simpl length in L. rewrite (IH (i - 1) d); [|lia|destruct t; [simpl in L; lia | discriminate]].
      replace (Z.to_nat i) with (Datatypes.S (Z.to_nat (i - 1))) by lia. reflexivity.
  Qed.

  Lemma ltail_is l : forall i, s_ltail S l i = skipn (Z.to_nat i) l.
  Proof.
    induction l as [|h t IH]; intros i; [rewrite (ax_ltail_nil S H), skipn_nil; reflexivity|].
    pose proof (ax_ltail_cons S H i h t) as A. destruct (Z.leb_spec i 0).
    - rewrite A. replace (Z.to_nat i) with 0%nat by lia. reflexivity.
    - rewrite A, IH. replace (Z.to_nat i) with (Datatypes.S (Z.to_nat (i - 1))) by lia. reflexivity.
  Qed.

  Lemma take_is l : forall i, s_take S l i = firstn (Z.to_nat i) l.
  Proof.
    induction l as [|h t IH]; intros i; [rewrite (ax_take_nil S H), firstn_nil; reflexivity|].
    pose proof (ax_take_cons S H i h t) as A. destruct (Z.leb_spec i 0).
    - rewrite A. replace (Z.to_nat i) with 0%nat by lia. reflexivity.
    - rewrite A, IH. replace (Z.to_nat i) with (Datatypes.S (Z.to_nat (i - 1))) by lia. reflexivity.
  Qed.

  (** the redundant assertion about [nil] fixes the selector on [nil] *)
  Lemma tail_nil : s_tail S [] = [].
  Proof.
    pose proof (ax_ltail_def S H [] 1) as A. rewrite (ax_ltail_nil S H) in A. simpl in A.
    pose proof (ax_ltail_def S H (s_tail S []) 0) as B. simpl in B. congruence.
  Qed.
End Lists.

Section Prelude.
  Variable I : smt.
  Hypothesis H : prelude_core I.
  Let HI := core_li I H.
  Let HM := core_lm I H.

  Lemma concat_is xs ys : s_concat I xs ys = xs ++ ys.
  Proof.
    induction xs; rewrite (ax_concat I H); [reflexivity|].
    now rewrite (ax_head _ HI), (ax_tail _ HI), IHxs.
  Qed.

  Lemma contains_is l v : s_contains I l v = existsb (Z.eqb v) l.
  Proof.
    induction l as [|h t IH]; rewrite (ax_contains I H), (length_is _ HI); [reflexivity|].
    rewrite (ax_head _ HI), (ax_tail _ HI), IH. cbn [existsb]. rewrite (Z.eqb_sym h v).
    destruct (Z.eqb_spec (Z.of_nat (length (h :: t))) 0); [simpl in *; lia|].
    destruct (v =? h); reflexivity.
  Qed.

  Lemma vec_slice_is l st en : vec_slice I l st en = skipn (Z.to_nat st) (firstn (Z.to_nat en) l).
  Proof. unfold vec_slice. now rewrite (ltail_is _ HI), (take_is _ HI). Qed.

  Lemma row_slice_is m st en : matrix_row_slice I m st en = skipn (Z.to_nat st) (firstn (Z.to_nat en) m).
  Proof. unfold matrix_row_slice. now rewrite (ltail_is _ HM), (take_is _ HM). Qed.

  Lemma mget0 r m : matrix_get I (r :: m) 0 = r.
  Proof. unfold matrix_get. pose proof (ax_get _ HM r m 0) as A. exact A. Qed.

  Lemma get0 x l : list_get I (x :: l) 0 = x.
  Proof. unfold list_get. pose proof (ax_get _ HI x l 0) as A. exact A. Qed.

  Lemma mtail1 r m : s_ltail (lm I) (r :: m) 1 = m.
  Proof. now rewrite (ltail_is _ HM). Qed.

  Lemma mlen_cons (r : list Z) m : (s_length (lm I) (r :: m) <? 1) = false.
  Proof. rewrite (length_is _ HM). simpl length. apply Z.ltb_ge. lia. Qed.

  Lemma mlen_nil : (s_length (lm I) [] <? 1) = true.
  Proof. now rewrite (length_is _ HM). Qed.

  Lemma col_slice_is m st en : s_col_slice I m st en = map (fun r => skipn (Z.to_nat st) (firstn (Z.to_nat en) r)) m.
  Proof.
    induction m as [|r m IH]; rewrite (ax_col_slice I H); [now rewrite mlen_nil|].
    rewrite mlen_cons, mget0, mtail1, IH, vec_slice_is. reflexivity.
  Qed.

  (** [firsts] is only determined on rows that are not empty *)
  Lemma firsts_is m : s_firsts I m = map (fun r => list_get I r 0) m.
  Proof.
    induction m as [|r m IH]; rewrite (ax_firsts I H); [now rewrite mlen_nil|].
    rewrite mlen_cons, mget0, mtail1, IH. reflexivity.
  Qed.

  Lemma rests_is m : s_rests I m =
    match m with [] => [] | r :: _ => map (fun r' => skipn 1 (firstn (length r) r')) m end.
  Proof.
    destruct m as [|r m]; rewrite (ax_rests I H); [now rewrite mlen_nil|].
    rewrite mlen_cons, mget0, (length_is _ HI), col_slice_is. rewrite Nat2Z.id. reflexivity.
  Qed.

  Lemma rests_length m : length (s_rests I m) = length m.
  Proof. rewrite rests_is. destruct m; [reflexivity|]. now rewrite map_length. Qed.

  Lemma exp_is n : s_exp I n = 3 ^ (Z.max 0 n) mod 64.
  Proof.
    destruct (Z.leb_spec n 0).
    - rewrite (ax_exp I H). destruct (Z.leb_spec n 0); [|lia]. now rewrite Z.max_l by lia.
    - replace n with (Z.of_nat (Z.to_nat n)) by lia. generalize (Z.to_nat n). clear n H0.
      induction n as [|n IH]; [now rewrite (ax_exp I H)|].
      rewrite (ax_exp I H). destruct (Z.leb_spec (Z.of_nat (Datatypes.S n)) 0); [lia|].
      replace (Z.of_nat (Datatypes.S n) - 1) with (Z.of_nat n) by lia. rewrite IH.
      change (smt_mod I (3 ^ Z.max 0 (Z.of_nat n) mod 64 * 3) 64) with ((3 ^ Z.max 0 (Z.of_nat n) mod 64 * 3) mod 64).
      rewrite Z.mul_mod_idemp_l by lia. f_equal.
      rewrite !Z.max_r by lia. replace (Z.of_nat (Datatypes.S n)) with (Z.succ (Z.of_nat n)) by lia.
      rewrite Z.pow_succ_r by lia. lia.
  Qed.

  (** ** the definition of [matrix_transpose] has no solution *)
  Lemma no_transpose : ~ ax_transpose I.
  Proof.
    intros T.
    assert (G : forall n m, m <> [] -> (n <= length (s_transpose I m))%nat).
    { induction n; intros m NE; [lia|]. rewrite T. destruct m as [|r m]; [congruence|].
      rewrite mlen_cons. unfold list_prepend. cbn [length].
      apply le_n_S, IHn. intros E. apply (f_equal (@length _)) in E. rewrite rests_length in E. discriminate. }
    pose proof (G (Datatypes.S (length (s_transpose I [[]]))) [[]]) as B.
    specialize (B ltac:(discriminate)). lia.
  Qed.
End Prelude.

(** ** the rest has a model *)

Section Orbit.
  Variables (f : Z -> Z) (base : Z -> bool) (B : Z).
  Hypothesis inv : forall x, - B <= x <= B -> base x = false -> - B <= f x <= B.

  (** first base point within [n] steps *)
  Fixpoint run (n : nat) (x : Z) : option Z :=
    if base x then Some x else match n with O => None | S n' => run n' (f x) end.

  Lemma run_mono n : forall x v m, run n x = Some v -> (n <= m)%nat -> run m x = Some v.
  Proof.
    induction n; intros x v m R L; simpl in R.
    - destruct (base x) eqn:BX; [|discriminate]. destruct m; simpl; now rewrite BX.
    - destruct m; [lia|]. simpl. destruct (base x); auto. apply IHn; auto; lia.
  Qed.

  (** the points visited *)
  Fixpoint orbit (n : nat) (x : Z) : list Z :=
    match n with O => [] | S n' => x :: orbit n' (f x) end.

  (** along a shortest run no point is visited twice *)
  Lemma run_after n : forall x v y, run n x = Some v -> In y (orbit n x) ->
    (forall k, (k < n)%nat -> run k x = None) -> exists k, (k <= n)%nat /\ run k y = Some v /\ (y = x -> k = n) .
  Proof.
    intros x v y R IN MIN.
    destruct (Z.eq_dec y x) as [->|N]; [exists n; auto|].
    revert x v R IN MIN N. induction n; intros x v R IN MIN N; [destruct IN|].
    destruct IN as [->|IN]; [congruence|]. simpl in R.
    assert (BX : base x = false).
    { specialize (MIN O ltac:(lia)). simpl in MIN. destruct (base x); [discriminate | auto]. }
    rewrite BX in R.
    destruct (Z.eq_dec y (f x)) as [->|N2].
    - exists n. split; [lia|]. split; auto. congruence.
    - destruct (IHn (f x) v R IN) as (k & K & RK & _); auto.
      + intros k K. specialize (MIN (S k) ltac:(lia)). simpl in MIN. now rewrite BX in MIN.
      + exists k. split; [lia|]. split; auto. congruence.
  Qed.

  Lemma orbit_length n x : length (orbit n x) = n.
  Proof. revert x. induction n; intros; simpl; auto. Qed.

  Lemma orbit_nodup n : forall x v, run n x = Some v -> (forall k, (k < n)%nat -> run k x = None) ->
    NoDup (orbit n x).
  Proof.
    induction n; intros x v R MIN; simpl; constructor.
    - intros IN. assert (BX : base x = false).
      { specialize (MIN O ltac:(lia)). simpl in MIN. destruct (base x); [discriminate | auto]. }
      simpl in R. rewrite BX in R.
      assert (MIN' : forall k, (k < n)%nat -> run k (f x) = None).
      { intros k K. specialize (MIN (S k) ltac:(lia)). simpl in MIN. now rewrite BX in MIN. }
      destruct (run_after n (f x) v x R IN MIN') as (k & K & RK & _).
      rewrite (MIN k) in RK by lia. discriminate.
    - assert (BX : base x = false).
      { specialize (MIN O ltac:(lia)). simpl in MIN. destruct (base x); [discriminate | auto]. }
      simpl in R. rewrite BX in R. eapply IHn; eauto.
      intros k K. specialize (MIN (S k) ltac:(lia)). simpl in MIN. now rewrite BX in MIN.
  Qed.

  Lemma shortest n : forall x v, run n x = Some v ->
    exists m, (m <= n)%nat /\ run m x = Some v /\ forall k, (k < m)%nat -> run k x = None.
  Proof.
    induction n as [n IH] using (well_founded_induction Wf_nat.lt_wf). intros x v R.
    destruct n as [|n]; [exists O; repeat split; auto; intros; lia|].
    destruct (run n x) as [w|] eqn:RN.
    - assert (w = v) by (pose proof (run_mono n x w (S n) RN ltac:(lia)); congruence). subst.
      destruct (IH n ltac:(lia) x v RN) as (m & L & A & B0). exists m. repeat split; auto; lia.
    - exists (S n). repeat split; auto. intros k K. destruct (run k x) as [w|] eqn:RK; auto.
      pose proof (run_mono k x w n RK ltac:(lia)). congruence.
  Qed.

  (** if a base point is ever reached it is reached within [2B+1] steps *)
  Lemma run_bounded x v n : - B <= x <= B -> run n x = Some v -> run (Z.to_nat (2 * B + 1)) x = Some v.
  Proof.
    intros HX R. destruct (shortest n x v R) as (m & _ & RM & MIN).
    destruct (Nat.le_gt_cases m (Z.to_nat (2 * B + 1))); [eapply run_mono; eauto|]. exfalso.
    destruct m as [|m]; [lia|].
    assert (ND : NoDup (orbit (S m) x)) by (eapply orbit_nodup; eauto).
    assert (INC : incl (orbit (S m) x) (map (fun i => Z.of_nat i - B) (seq 0 (Z.to_nat (2 * B + 1))))).
    { intros y IN. assert (BY : - B <= y <= B).
      { clear -RM MIN IN HX inv. revert x RM MIN IN HX.
        (* all but possibly the last come from a failing run *)
        assert (G : forall n x, (forall k, (k < n)%nat -> run k x = None) -> - B <= x <= B ->
                  forall y, In y (orbit n x) -> - B <= y <= B).
        { induction n; intros x MIN HX z IN; [destruct IN|]. destruct IN as [<-|IN]; auto.
          assert (BX : base x = false).
          { specialize (MIN O ltac:(lia)). simpl in MIN. destruct (base x); [discriminate | auto]. }
          apply (IHn (f x)); auto. intros k K. specialize (MIN (S k) ltac:(lia)). simpl in MIN. now rewrite BX in MIN. }
        intros x RM MIN IN HX. eapply G; eauto. }
      apply in_map_iff. exists (Z.to_nat (y + B)). split; [lia|]. apply in_seq. lia. }
    pose proof (NoDup_incl_length ND INC) as L. rewrite map_length, seq_length, orbit_length in L. lia.
  Qed.
End Orbit.

(** *** the model *)

Definition std_lists {T} (d : T) : lsyms T := {|
  s_head := fun l => hd d l;
  s_tail := fun l => tl l;
  s_length := fun l => Z.of_nat (length l);
  s_append := fun l v => l ++ [v];
  s_get := fun l i => nth (Z.to_nat i) l d;
  s_ltail := fun l i => skipn (Z.to_nat i) l;
  s_take := fun l i => firstn (Z.to_nat i) l |}.

Lemma to_nat_pos i : i > 0 -> Z.to_nat i = Datatypes.S (Z.to_nat (i - 1)).
Proof. lia. Qed.

Lemma to_nat_neg i : i <= 0 -> Z.to_nat i = 0%nat.
Proof. lia. Qed.

Lemma std_lax {T} (d : T) : lax (std_lists d).
Proof.
  constructor; cbn [s_head s_tail s_length s_append s_get s_ltail s_take std_lists]; intros; auto.
  - simpl length. lia.
  - lia.
  - destruct (Z.leb_spec i 0); [now rewrite to_nat_neg by lia|]. now rewrite to_nat_pos by lia.
  - destruct (Z.leb_spec n 0); [now rewrite to_nat_neg by lia|].
    rewrite (to_nat_pos n) by lia. destruct l; simpl; [now rewrite skipn_nil | reflexivity].
  - destruct (Z.leb_spec st 0); [now rewrite to_nat_neg by lia|]. now rewrite (to_nat_pos st) by lia.
  - apply skipn_nil.
  - apply skipn_all2. lia.
  - destruct (Z.leb_spec en 0); [now rewrite to_nat_neg by lia|]. now rewrite (to_nat_pos en) by lia.
  - apply firstn_nil.
  - apply firstn_all2. lia.
Qed.

Definition sq_base (n g : Z) : bool :=
  (((g =? 0) || (g =? 1)) || (g >? 64)) || (g =? euclid_div n g).
Definition sq_step (n g : Z) : Z := (g + euclid_div n g) / 2.
Definition sq_out (g : Z) : Z := if ((g =? 0) || (g =? 1)) || (g >? 64) then 1 else g.
(** [c]: the value on guesses from which the iteration never stops *)
Definition sq (c n g : Z) : Z :=
  match run (sq_step n) (sq_base n) (Z.to_nat (2 * Z.max (Z.abs g) (Z.abs n) + 1)) g with
  | Some x => sq_out x
  | None => c
  end.

Lemma abs_euclid n g : g <> 0 -> Z.abs (euclid_div n g) <= Z.abs n.
Proof.
  intros G. unfold euclid_div.
  assert (Z.abs (n / Z.abs g) <= Z.abs n).
  { assert (P : 0 < Z.abs g) by lia. revert P. generalize (Z.abs g). intros k P.
    pose proof (Z.div_mod n k ltac:(lia)). pose proof (Z.mod_pos_bound n k P).
    assert (n / k * 1 <= n / k * k \/ n / k < 0) by nia.
    destruct (Z.le_gt_cases 0 n).
    - assert (0 <= n / k) by (apply Z.div_pos; lia). nia.
    - assert (n / k < 0) by (apply Z.div_lt_upper_bound; lia). nia. }
  destruct (Z.lt_trichotomy g 0) as [L|[L|L]]; [|lia|]; [rewrite Z.sgn_neg by lia | rewrite Z.sgn_pos by lia]; lia.
Qed.

Lemma sq_inv n B : Z.abs n <= B -> forall x, - B <= x <= B -> sq_base n x = false -> - B <= sq_step n x <= B.
Proof.
  intros NB x X BX. unfold sq_base in BX. apply orb_false_iff in BX as [BX _]. apply orb_false_iff in BX as [BX _].
  apply orb_false_iff in BX as [BX _]. apply Z.eqb_neq in BX.
  pose proof (abs_euclid n x BX). unfold sq_step. set (q := euclid_div n x) in *.
  pose proof (Z.div_mod (x + q) 2 ltac:(lia)). pose proof (Z.mod_pos_bound (x + q) 2 ltac:(lia)). lia.
Qed.

Lemma sq_eq c n g : sq c n g =
    if ((g =? 0) || (g =? 1)) || (g >? 64) then 1
    else if g =? euclid_div n g then g
    else sq c n ((g + euclid_div n g) / 2).
Proof.
  destruct (((g =? 0) || (g =? 1)) || (g >? 64)) eqn:B1.
  { unfold sq. destruct (Z.to_nat _); cbn [run]; unfold sq_base; rewrite B1; simpl; unfold sq_out; now rewrite B1. }
  destruct (g =? euclid_div n g) eqn:B2.
  { unfold sq. destruct (Z.to_nat _); cbn [run]; unfold sq_base; rewrite B1, B2; simpl; unfold sq_out; now rewrite B1. }
  assert (BG : sq_base n g = false) by (unfold sq_base; now rewrite B1, B2).
  change ((g + euclid_div n g) / 2) with (sq_step n g). unfold sq.
  set (B := Z.max (Z.abs g) (Z.abs n)). set (g' := sq_step n g). set (B' := Z.max (Z.abs g') (Z.abs n)).
  assert (IB : forall x, - B <= x <= B -> sq_base n x = false -> - B <= sq_step n x <= B) by (apply sq_inv; lia).
  assert (IB' : forall x, - B' <= x <= B' -> sq_base n x = false -> - B' <= sq_step n x <= B') by (apply sq_inv; lia).
  assert (E : run (sq_step n) (sq_base n) (Z.to_nat (2 * B + 1)) g = run (sq_step n) (sq_base n) (Z.to_nat (2 * B' + 1)) g'); [|now rewrite E].
  destruct (run (sq_step n) (sq_base n) (Z.to_nat (2 * B' + 1)) g') as [v|] eqn:R'.
  - apply (run_bounded _ _ B IB g v (Datatypes.S (Z.to_nat (2 * B' + 1)))); [lia|]. cbn [run]. now rewrite BG.
  - destruct (run (sq_step n) (sq_base n) (Z.to_nat (2 * B + 1)) g) as [v|] eqn:R; auto.
    replace (Z.to_nat (2 * B + 1)) with (Datatypes.S (Z.to_nat (2 * B))) in R by lia. cbn [run] in R. rewrite BG in R.
    fold g' in R. rewrite (run_bounded _ _ B' IB' g' v _ ltac:(lia) R) in R'. discriminate.
Qed.

(** [d]: the value of reading past the end of a list *)
Definition std_gen (d c : Z) : smt := {|
  li := std_lists d; lm := std_lists [];
  s_concat := @app Z;
  s_contains := fun l v => existsb (Z.eqb v) l;
  s_col_slice := fun m st en => map (fun r => skipn (Z.to_nat st) (firstn (Z.to_nat en) r)) m;
  s_col_slice_len := fun m st n => map (fun r => skipn (Z.to_nat st) (firstn (Z.to_nat (st + n)) r)) m;
  s_firsts := map (fun r => nth 0 r d);
  s_rests := fun m => match m with [] => [] | r :: _ => map (fun r' => skipn 1 (firstn (length r) r')) m end;
  s_transpose := fun m => m;
  s_exp := fun n => 3 ^ (Z.max 0 n) mod 64;
  s_sqrt_helper := sq c;
  s_div0 := fun _ => 0; s_mod0 := fun _ => 0 |}.

Definition std_with (c : Z) : smt := std_gen 0 c.
Definition std : smt := std_with 0.

Lemma std_gen_core d c : prelude_core (std_gen d c).
Proof.
  constructor; intros.
  - apply std_lax.
  - apply std_lax.
  - destruct xs; reflexivity.
  - destruct l as [|h t]; [reflexivity|]. cbn [li std_gen std_lists s_length s_head s_tail s_contains hd tl existsb].
    rewrite (Z.eqb_sym h v).
    destruct (Z.eqb_spec (Z.of_nat (length (h :: t))) 0); [simpl in *; lia|]. destruct (v =? h); reflexivity.
  - apply app_nil_r.
  - unfold list_get. cbn [li std_gen std_lists s_length s_get s_ltail] in *.
    assert (L : (Z.to_nat i < length l)%nat) by lia. replace (Z.to_nat (i + 1)) with (Datatypes.S (Z.to_nat i)) by lia.
    revert L. generalize (Z.to_nat i). clear H i. induction l; intros [|i] L; simpl in *; try lia; auto.
    apply IHl. lia.
  - cbn [li std_gen std_lists s_concat s_append]. now rewrite <- app_assoc.
  - destruct m as [|r m]; [reflexivity|].
    cbn [lm std_gen std_lists s_col_slice s_length s_ltail map].
    destruct (Z.ltb_spec (Z.of_nat (length (r :: m))) 1); [simpl in *; lia|]. reflexivity.
  - reflexivity.
  - destruct m as [|r m]; [reflexivity|]. cbn [lm std_gen std_lists s_firsts s_length s_ltail map].
    destruct (Z.ltb_spec (Z.of_nat (length (r :: m))) 1); [simpl in *; lia|]. reflexivity.
  - destruct m as [|r m]; [reflexivity|]. cbn [lm std_gen std_lists s_rests s_length s_ltail].
    destruct (Z.ltb_spec (Z.of_nat (length (r :: m))) 1); [simpl in *; lia|].
    cbn [std_gen s_col_slice]. unfold matrix_get. cbn [std_gen lm li std_lists s_get s_length]. simpl (nth _ _ _).
    now rewrite Nat2Z.id.
  - cbn [std_gen s_exp]. destruct (Z.leb_spec n 0); [now rewrite Z.max_l by lia|].
    unfold smt_mod. simpl (64 =? 0). unfold euclid_mod. simpl (Z.abs 64).
    rewrite Z.mul_mod_idemp_l by lia. f_equal. rewrite !Z.max_r by lia.
    replace n with (Z.succ (n - 1)) at 1 by lia. rewrite Z.pow_succ_r by lia. lia.
  - cbn [std_gen s_sqrt_helper]. rewrite sq_eq at 1.
    destruct (((g =? 0) || (g =? 1)) || (g >? 64)) eqn:B1; auto.
    unfold smt_div. destruct (g =? 0) eqn:G0; [simpl in B1; discriminate|]. simpl (2 =? 0).
    assert (D2 : forall x, euclid_div x 2 = x / 2).
    { intros x. unfold euclid_div. change (Z.sgn 2) with 1. change (Z.abs 2) with 2. lia. }
    rewrite D2. reflexivity.
Qed.

Lemma std_with_core c : prelude_core (std_with c).
Proof. apply std_gen_core. Qed.
Lemma std_core : prelude_core std.
Proof. apply std_with_core. Qed.
