(** Proofs about the Racket functions and their SMT counterparts. *)

From Coq Require Import ZArith List Bool String Lia Sorting.Sorted.
From Verif Require Import SmtPrelude SmtProofs RktModel ListOps.
Import ListNotations.
Local Open Scope Z_scope.
Local Open Scope list_scope.

(** ** lists *)

Lemma zlen_nonneg A (l : list A) : 0 <= zlen l.
Proof. unfold zlen. lia. Qed.

Lemma eqb_list_spec A (eqb : A -> A -> bool) (E : forall a b, eqb a b = true <-> a = b) l :
  forall l', eqb_list eqb l l' = true <-> l = l'.
Proof.
  induction l; intros [|b l']; simpl; try (split; congruence).
  rewrite andb_true_iff, E, IHl. split; [intros [-> ->]; auto | intros [= -> ->]; auto].
Qed.

Lemma take_noerr_is A (l : list A) i : list_take_noerr l i = firstn (Z.to_nat i) l.
Proof.
  unfold list_take_noerr, zlen. destruct (Z.leb_spec i 0).
  - now rewrite to_nat_neg by lia.
  - destruct (Z.leb_spec 0 i), (Z.ltb_spec i (Z.of_nat (Datatypes.length l))); simpl; try lia; auto.
    symmetry. apply firstn_all2. lia.
Qed.

Lemma tail_noerr_is A (l : list A) i : 0 <= i -> list_tail_noerr l i = skipn (Z.to_nat i) l.
Proof.
  unfold list_tail_noerr, zlen. intros P.
  destruct (Z.leb_spec 0 i), (Z.leb_spec i (Z.of_nat (Datatypes.length l))); simpl; try lia; auto.
  symmetry. apply skipn_all2. lia.
Qed.

Lemma tail_noerr_neg A (l : list A) i : i < 0 -> list_tail_noerr l i = [].
Proof. unfold list_tail_noerr. intros N. destruct (Z.leb_spec 0 i); [lia | reflexivity]. Qed.

Lemma ref_in_range l i : 0 <= i < zlen l -> list_ref_noerr l i = nth (Z.to_nat i) l 0.
Proof.
  unfold list_ref_noerr, in_range. intros [A B].
  destruct (Z.leb_spec 0 i), (Z.ltb_spec i (zlen l)); simpl; try lia; auto.
Qed.

Lemma ref_out_of_range l i : i < 0 \/ zlen l <= i -> list_ref_noerr l i = 0.
Proof.
  unfold list_ref_noerr, in_range. intros H.
  destruct (Z.leb_spec 0 i), (Z.ltb_spec i (zlen l)); simpl; try lia; auto.
Qed.

Lemma mref_in_range A (l : list (list A)) i : 0 <= i < zlen l -> matrix_ref_noerr l i = nth (Z.to_nat i) l [].
Proof.
  unfold matrix_ref_noerr, in_range. intros [X B].
  destruct (Z.leb_spec 0 i), (Z.ltb_spec i (zlen l)); simpl; try lia; auto.
Qed.

Lemma slice_noerr_is A (l : list A) st en : 0 <= st ->
  vec_slice_noerr l st en = skipn (Z.to_nat st) (firstn (Z.to_nat en) l).
Proof. intros P. unfold vec_slice_noerr. now rewrite take_noerr_is, tail_noerr_is. Qed.

Lemma matrix_prepend_nonempty A (r : list A) m : r <> [] -> matrix_prepend r m = r :: m.
Proof. destruct r; [congruence|]. intros _. unfold matrix_prepend, zlen. simpl. reflexivity. Qed.

Lemma col_slice_noerr_is m st en : 0 <= st ->
  Forall (fun r => skipn (Z.to_nat st) (firstn (Z.to_nat en) r) <> []) m ->
  matrix_col_slice_noerr m st en = map (fun r => skipn (Z.to_nat st) (firstn (Z.to_nat en) r)) m.
Proof.
  intros P. induction 1 as [|r m NE F IH]; [reflexivity|]. cbn [matrix_col_slice_noerr map].
  rewrite slice_noerr_is, IH by auto. now apply matrix_prepend_nonempty.
Qed.

(** in general: the slices that are not empty *)
Lemma col_slice_noerr_general m st en : 0 <= st ->
  matrix_col_slice_noerr m st en =
  filter (fun r => match r with [] => false | _ => true end)
         (map (fun r => skipn (Z.to_nat st) (firstn (Z.to_nat en) r)) m).
Proof.
  intros P. induction m as [|r m IH]; [reflexivity|]. cbn [matrix_col_slice_noerr map filter].
  rewrite slice_noerr_is, IH by auto. destruct (skipn _ _); [reflexivity|]. now apply matrix_prepend_nonempty.
Qed.

(** ** transposition *)

Lemma firsts_is m : forall fuel, (Datatypes.length m < fuel)%nat ->
  firsts fuel m = Some (map (fun r => list_ref_noerr r 0) m).
Proof.
  induction m as [|r m IH]; intros fuel L; (destruct fuel as [|fuel]; [lia|]); cbn [firsts]; [reflexivity|].
  destruct (Z.ltb_spec (zlen (r :: m)) 1); [unfold zlen in *; simpl in *; lia|].
  replace (list_tail_noerr (r :: m) 1) with m.
  2:{ rewrite tail_noerr_is by lia. reflexivity. }
  rewrite IH by (simpl in L; lia). unfold rkt_prepend. cbn [map].
  rewrite mref_in_range by (unfold zlen; simpl; lia). reflexivity.
Qed.

(** a matrix all of whose rows have length [c] *)
Definition rect (c : nat) (m : list (list Z)) : Prop := Forall (fun r => Datatypes.length r = c) m.

Lemma rests_rect c m : rect (S (S c)) m -> rests m = map (skipn 1) m /\ rect (S c) (map (skipn 1) m).
Proof.
  intros R. split.
  - unfold rests. destruct m as [|r m]; [reflexivity|].
    destruct (Z.ltb_spec (zlen (r :: m)) 1); [unfold zlen in *; simpl in *; lia|].
    rewrite mref_in_range by (unfold zlen; simpl; lia). simpl (nth _ _ _).
    inversion R as [|? ? R1 R2]; subst.
    rewrite col_slice_noerr_is; [| lia |].
    + apply map_ext_in. intros r' IN. unfold rect in R. rewrite Forall_forall in R.
      unfold zlen. rewrite Nat2Z.id, R1, <- (R r' IN), firstn_all. reflexivity.
    + unfold rect in R. rewrite Forall_forall in *. intros r' IN. unfold zlen. rewrite Nat2Z.id, R1, <- (R r' IN), firstn_all.
      specialize (R r' IN). destruct r' as [|x [|y r']]; simpl in *; congruence.
  - clear -R. induction R; constructor; auto. destruct x; simpl in *; lia.
Qed.

Lemma rests_one m : rect 1 m -> rests m = [].
Proof.
  intros R. unfold rests. destruct m as [|r m]; [reflexivity|].
  destruct (Z.ltb_spec (zlen (r :: m)) 1); [reflexivity|].
  rewrite mref_in_range by (unfold zlen; simpl; lia). simpl (nth _ _ _).
  rewrite col_slice_noerr_general by lia.
  assert (E : forall l, rect 1 l -> filter (fun r => match r with [] => false | _ => true end)
     (map (fun r' => skipn (Z.to_nat 1) (firstn (Z.to_nat (zlen r)) r')) l) = []).
  { induction 1; [reflexivity|]. cbn [map filter]. destruct x as [|a [|]]; simpl in *; try lia.
    pose proof (Forall_inv R) as R1. cbv beta in R1. unfold zlen. rewrite Nat2Z.id, R1. simpl. unfold zlen in IHForall. rewrite Nat2Z.id, R1 in IHForall. exact IHForall. }
  apply E. exact R.
Qed.

(** the transposed matrix: [c] rows, each with the entries of one column *)
Definition transposed (c : nat) (m : list (list Z)) : list (list Z) :=
  map (fun j => map (fun r => nth j r 0) m) (seq 0 c).

Lemma transpose_is c : forall m fuel, m <> [] -> rect (S c) m -> (Datatypes.length m + S c < fuel)%nat ->
  matrix_transpose_noerr fuel m = Some (transposed (S c) m).
Proof.
  induction c as [|c IH]; intros m fuel NE R L; (destruct fuel as [|fuel]; [lia|]); cbn [matrix_transpose_noerr].
  - destruct (Z.ltb_spec (zlen m) 1); [destruct m; [congruence | unfold zlen in *; simpl in *; lia]|].
    rewrite firsts_is by lia. rewrite rests_one by auto.
    destruct fuel as [|fuel]; [lia|]. simpl (matrix_transpose_noerr (S fuel) []).
    unfold transposed. cbn [seq map]. rewrite matrix_prepend_nonempty by (destruct m; [congruence | discriminate]).
    f_equal. f_equal. unfold rect in R. rewrite Forall_forall in R. apply map_ext_in. intros r IN.
    specialize (R r IN). rewrite ref_in_range by (unfold zlen; lia). reflexivity.
  - destruct (Z.ltb_spec (zlen m) 1); [destruct m; [congruence | unfold zlen in *; simpl in *; lia]|].
    rewrite firsts_is by lia. destruct (rests_rect c m R) as (E & R').
    rewrite E, (IH (map (skipn 1) m) fuel).
    + unfold transposed. rewrite matrix_prepend_nonempty by (destruct m; [congruence | discriminate]).
      f_equal. change (seq 0 (S (S c))) with (0%nat :: seq 1 (S c)). rewrite <- seq_shift. cbn [map].
      f_equal.
      * unfold rect in R. rewrite Forall_forall in R. apply map_ext_in. intros r IN.
        specialize (R r IN). rewrite ref_in_range by (unfold zlen; lia). reflexivity.
      * rewrite map_map. apply map_ext. intros j. rewrite map_map. unfold rect in R. rewrite Forall_forall in R.
        apply map_ext_in. intros r IN. specialize (R r IN). destruct r; [simpl in R; lia|]. reflexivity.
    + destruct m; [congruence | discriminate].
    + exact R'.
    + rewrite map_length. lia.
Qed.

Lemma transposed_rect c m : rect (Datatypes.length m) (transposed c m).
Proof.
  unfold rect, transposed. apply Forall_forall. intros r IN. apply in_map_iff in IN as (j & <- & _).
  apply map_length.
Qed.

Lemma transposed_entry c m i j : (j < c)%nat -> (i < Datatypes.length m)%nat ->
  nth i (nth j (transposed c m) []) 0 = nth j (nth i m []) 0.
Proof.
  intros J I. unfold transposed.
  rewrite (nth_indep _ [] (map (fun r => nth 0 r 0) m)) by (rewrite map_length, seq_length; lia).
  rewrite (map_nth (fun j => map (fun r => nth j r 0) m) (seq 0 c) 0%nat j), seq_nth by lia.
  rewrite (nth_indep _ 0 (nth (0 + j) [] 0)) by (rewrite map_length; lia).
  now rewrite (map_nth (fun r => nth (0 + j) r 0) m [] i).
Qed.

Lemma transposed_twice c m : rect c m -> (0 < c)%nat ->
  transposed (Datatypes.length m) (transposed c m) = m.
Proof.
  intros R C. apply nth_ext with (d := []) (d' := []).
  - unfold transposed at 1. now rewrite map_length, seq_length.
  - unfold transposed at 1. rewrite map_length, seq_length. intros i I.
    unfold rect in R. rewrite Forall_forall in R.
    assert (RI : Datatypes.length (nth i m []) = c) by (apply R, nth_In; auto).
    apply nth_ext with (d := 0) (d' := 0).
    + assert (IN : In (nth i (transposed (Datatypes.length m) (transposed c m)) []) (transposed (Datatypes.length m) (transposed c m))).
      { apply nth_In. unfold transposed at 1. now rewrite map_length, seq_length. }
      pose proof (transposed_rect (Datatypes.length m) (transposed c m)) as T. unfold rect in T. rewrite Forall_forall in T.
      rewrite (T _ IN), RI. unfold transposed. now rewrite map_length, seq_length.
    + intros j J.
      assert (IN : In (nth i (transposed (Datatypes.length m) (transposed c m)) []) (transposed (Datatypes.length m) (transposed c m))).
      { apply nth_In. unfold transposed at 1. now rewrite map_length, seq_length. }
      pose proof (transposed_rect (Datatypes.length m) (transposed c m)) as T. unfold rect in T. rewrite Forall_forall in T.
      rewrite (T _ IN) in J. assert (J' : (j < c)%nat) by (unfold transposed in J; now rewrite map_length, seq_length in J).
      rewrite transposed_entry by (auto; unfold transposed; now rewrite map_length, seq_length).
      now apply transposed_entry.
Qed.

(** ** integers *)

Lemma exp_noerr_is n : forall fuel, (Z.to_nat n < fuel)%nat ->
  integer_exp_noerr fuel n = Some (3 ^ (Z.max 0 n) mod 64).
Proof.
  intros fuel. revert n. induction fuel as [|fuel IH]; intros n L; [lia|]. cbn [integer_exp_noerr].
  destruct (Z.leb_spec n 0); [now rewrite Z.max_l by lia|].
  rewrite IH by lia. f_equal.
  pose proof (Z.mod_pos_bound (3 ^ Z.max 0 (n - 1)) 64 ltac:(lia)).
  rewrite Z.rem_mod_nonneg by lia. rewrite Z.mul_mod_idemp_r by lia. f_equal.
  rewrite !Z.max_r by lia. replace n with (Z.succ (n - 1)) at 2 by lia. rewrite Z.pow_succ_r by lia. reflexivity.
Qed.

Lemma exp_noerr_fuel n : forall fuel, (fuel <= Z.to_nat n)%nat -> integer_exp_noerr fuel n = None.
Proof.
  intros fuel. revert n. induction fuel as [|fuel IH]; intros n L; [reflexivity|]. cbn [integer_exp_noerr].
  destruct (Z.leb_spec n 0); [lia|]. now rewrite IH by lia.
Qed.

(** ** sets *)

Definition ssorted := StronglySorted Z.lt.

Lemma ssorted_cons a l : ssorted (a :: l) <-> ssorted l /\ Forall (Z.lt a) l.
Proof. split; [intros H; inversion H; auto | intros [A B]; constructor; auto]. Qed.

Lemma set_union_in xs : forall ys x, In x (set_union xs ys) <-> In x xs \/ In x ys.
Proof.
  induction xs as [|a xs IHx]; intros ys; [simpl; tauto|].
  induction ys as [|b ys IHy]; intros x; [simpl; tauto|].
  cbn [set_union]. destruct (Z.eqb_spec a b) as [->|N].
  - change ((fix go (ys : list Z) : list Z := match ys with [] => b :: xs | b0 :: ys' =>
       if b =? b0 then go ys' else if b <? b0 then b :: set_union xs (b0 :: ys') else b0 :: go ys' end) ys)
      with (set_union (b :: xs) ys). rewrite IHy. simpl. tauto.
  - destruct (a <? b).
    + cbn [In]. rewrite IHx. simpl. tauto.
    + change ((fix go (ys : list Z) : list Z := match ys with [] => a :: xs | b0 :: ys' =>
       if a =? b0 then go ys' else if a <? b0 then a :: set_union xs (b0 :: ys') else b0 :: go ys' end) ys)
      with (set_union (a :: xs) ys). cbn [In]. rewrite IHy. simpl. tauto.
Qed.

Lemma set_union_sorted xs : forall ys, ssorted xs -> ssorted ys -> ssorted (set_union xs ys).
Proof.
  induction xs as [|a xs IHx]; intros ys SX SY; [exact SY|].
  induction ys as [|b ys IHy]; [exact SX|].
  pose proof SX as SX0. pose proof SY as SY0.
  apply ssorted_cons in SX as [SX FX]. apply ssorted_cons in SY as [SY FY].
  cbn [set_union]. destruct (Z.eqb_spec a b) as [->|N].
  - change ((fix go (ys : list Z) : list Z := match ys with [] => b :: xs | b0 :: ys' =>
       if b =? b0 then go ys' else if b <? b0 then b :: set_union xs (b0 :: ys') else b0 :: go ys' end) ys)
      with (set_union (b :: xs) ys). auto.
  - destruct (Z.ltb_spec a b).
    + apply ssorted_cons. split; [apply IHx; auto|]. apply Forall_forall. intros x IN.
      apply set_union_in in IN. rewrite Forall_forall in FX, FY. destruct IN as [IN|[<-|IN]]; auto.
      specialize (FY x IN). lia.
    + change ((fix go (ys : list Z) : list Z := match ys with [] => a :: xs | b0 :: ys' =>
       if a =? b0 then go ys' else if a <? b0 then a :: set_union xs (b0 :: ys') else b0 :: go ys' end) ys)
      with (set_union (a :: xs) ys). apply ssorted_cons. split; [auto|]. apply Forall_forall. intros x IN.
      apply set_union_in in IN. rewrite Forall_forall in FX, FY. destruct IN as [[<-|IN]|IN]; auto; try lia.
      specialize (FX x IN). lia.
Qed.

Lemma ssorted_notin a l : Forall (Z.lt a) l -> ~ In a l.
Proof. rewrite Forall_forall. intros F IN. specialize (F a IN). lia. Qed.

Lemma set_minus_in xs : forall ys, ssorted xs -> ssorted ys -> forall x, In x (set_minus xs ys) <-> In x xs /\ ~ In x ys.
Proof.
  induction xs as [|a xs IHx]; intros ys SX SY x; [simpl; tauto|].
  induction ys as [|b ys IHy]; [simpl; tauto|].
  pose proof SX as SX0. pose proof SY as SY0.
  apply ssorted_cons in SX as [SX FX]. apply ssorted_cons in SY as [SY FY].
  cbn [set_minus]. destruct (Z.eqb_spec a b) as [->|N].
  - rewrite IHx by auto. simpl. pose proof (ssorted_notin _ _ FX). pose proof (ssorted_notin _ _ FY).
    split; [intros [A B]; split; auto; intros [->|C]; auto | intros [[->|A] B]; [tauto|]; split; auto].
  - destruct (Z.ltb_spec a b).
    + cbn [In]. rewrite IHx by auto. simpl. rewrite Forall_forall in FX, FY.
      split.
      * intros [<-|[A B]]; [|tauto]. split; auto. intros [->|C]; [lia|]. specialize (FY a C). lia.
      * intros [[<-|A] B]; [auto|]. right. split; auto.
    + change ((fix go (ys : list Z) : list Z := match ys with [] => a :: xs | b0 :: ys' =>
       if a =? b0 then set_minus xs ys' else if a <? b0 then a :: set_minus xs (b0 :: ys') else go ys' end) ys)
      with (set_minus (a :: xs) ys). rewrite IHy by auto. cbn [In].
      rewrite Forall_forall in FX. split.
      * intros [A B]. split; auto. intros [->|C]; [|tauto]. destruct A as [->|A]; [lia|]. specialize (FX x A). lia.
      * intros [A B]. split; auto.
Qed.

Lemma set_minus_sorted xs : forall ys, ssorted xs -> ssorted ys -> ssorted (set_minus xs ys).
Proof.
  induction xs as [|a xs IHx]; intros ys SX SY; [constructor|].
  induction ys as [|b ys IHy]; [exact SX|].
  pose proof SX as SX0. pose proof SY as SY0.
  apply ssorted_cons in SX as [SX FX]. apply ssorted_cons in SY as [SY FY].
  cbn [set_minus]. destruct (Z.eqb_spec a b) as [->|N]; [auto|].
  destruct (Z.ltb_spec a b).
  - apply ssorted_cons. split; [auto|]. apply Forall_forall. intros x IN.
    apply set_minus_in in IN as [IN _]; auto. rewrite Forall_forall in FX. auto.
  - apply IHy. auto.
Qed.

Lemma set_subset_spec s1 s2 : ssorted s1 -> ssorted s2 -> set_subset s1 s2 = true <-> incl s1 s2.
Proof.
  revert s1. induction s2 as [|b s2 IH]; intros [|a s1] S1 S2; simpl.
  - split; auto. intros _ x [].
  - split; [discriminate|]. intros HI. destruct (HI a (or_introl eq_refl)).
  - split; auto. intros _ x [].
  - apply ssorted_cons in S2 as [S2 F2]. pose proof S1 as S10. apply ssorted_cons in S1 as [S1 F1].
    destruct (Z.eqb_spec a b) as [->|N].
    + rewrite IH by auto. split.
      * intros HI x [<-|IN]; [left; auto | right; auto].
      * intros HI x IN. destruct (HI x (or_intror IN)) as [<-|IN2]; auto. now apply ssorted_notin in F1.
    + destruct (Z.ltb_spec a b).
      * split; [discriminate|]. intros HI. destruct (HI a (or_introl eq_refl)) as [->|IN]; [congruence|].
        rewrite Forall_forall in F2. specialize (F2 a IN). lia.
      * rewrite IH by auto. split.
        -- intros HI x IN. right. auto.
        -- intros HI x IN. destruct (HI x IN) as [<-|IN2]; auto. destruct IN as [->|IN]; [congruence|].
           rewrite Forall_forall in F1. specialize (F1 b IN). lia.
Qed.

Lemma ssorted_ext l : forall l', ssorted l -> ssorted l' -> (forall x, In x l <-> In x l') -> l = l'.
Proof.
  induction l as [|a l IH]; intros [|b l'] S S' E.
  - reflexivity.
  - destruct (proj2 (E b) (or_introl eq_refl)).
  - destruct (proj1 (E a) (or_introl eq_refl)).
  - apply ssorted_cons in S as [S F]. apply ssorted_cons in S' as [S' F'].
    rewrite Forall_forall in F, F'.
    assert (a = b).
    { destruct (proj1 (E a) (or_introl eq_refl)) as [->|IN]; auto.
      destruct (proj2 (E b) (or_introl eq_refl)) as [->|IN']; auto.
      specialize (F b IN'). specialize (F' a IN). lia. }
    subst b. f_equal. apply IH; auto. intros x. split; intros IN.
    + destruct (proj1 (E x) (or_intror IN)) as [<-|]; auto. specialize (F a IN). lia.
    + destruct (proj2 (E x) (or_intror IN)) as [<-|]; auto. specialize (F' a IN). lia.
Qed.

(** ** maps *)

Lemma map_contains_spec m k : (map_contains m k = 1 /\ In k (map fst m)) \/ (map_contains m k = 0 /\ ~ In k (map fst m)).
Proof.
  induction m as [|[k' v] m IH]; simpl; [auto|].
  destruct (Z.eqb_spec k' k) as [->|N]; [auto|]. destruct IH as [[A B]|[A B]]; [auto | right; split; auto; tauto].
Qed.

Lemma map_get_app m k v k' : ~ In k (map fst m) ->
  map_get (m ++ [(k, v)]) k' = if k =? k' then v else map_get m k'.
Proof.
  induction m as [|[k2 v2] m IH]; simpl; intros NI; [reflexivity|].
  destruct (Z.eqb_spec k2 k') as [->|N].
  - destruct (Z.eqb_spec k k'); [subst; tauto | reflexivity].
  - apply IH. tauto.
Qed.

Lemma map_get_set m k v k' : In k (map fst m) ->
  map_get (list_set m (map_idx m k) (k, v)) k' = if k =? k' then v else map_get m k'.
Proof.
  induction m as [|[k2 v2] m IH]; simpl; intros IN; [tauto|].
  destruct (Z.eqb_spec k2 k) as [->|N].
  - simpl. destruct (k =? k'); reflexivity.
  - simpl. destruct (Z.eqb_spec k2 k') as [->|N2].
    + destruct (Z.eqb_spec k k'); [congruence | reflexivity].
    + apply IH. destruct IN; [congruence | auto].
Qed.

Lemma list_set_keys m k v : In k (map fst m) ->
  map fst (list_set m (map_idx m k) (k, v)) = map fst m.
Proof.
  induction m as [|[k2 v2] m IH]; simpl; intros IN; [tauto|].
  destruct (Z.eqb_spec k2 k) as [->|N]; simpl; f_equal. apply IH. destruct IN; [congruence | auto].
Qed.

(** ** division *)

Lemma div_cases x y : y <> 0 ->
  exists q r d m e s,
    Z.quot x y = q /\ Z.rem x y = r /\ x / y = d /\ x mod y = m /\ euclid_div x y = e /\ euclid_mod x y = s /\
    x = y * q + r /\ x = y * d + m /\ x = y * e + s /\
    (0 <= x -> 0 <= r) /\ (x <= 0 -> r <= 0) /\ Z.abs r < Z.abs y /\
    (0 < y -> 0 <= m < y) /\ (y < 0 -> y < m <= 0) /\ 0 <= s < Z.abs y.
Proof.
  intros N. do 6 eexists. do 6 (split; [reflexivity|]).
  split; [apply Z.quot_rem'|]. split; [apply Z.div_mod; auto|].
  split.
  { unfold euclid_div, euclid_mod. rewrite (Z.div_mod x (Z.abs y)) at 1 by lia. f_equal.
    rewrite Z.mul_assoc. f_equal. destruct y; simpl; lia. }
  split; [intros; now apply Z.rem_nonneg|]. split; [intros; now apply Z.rem_nonpos|].
  split; [now apply Z.rem_bound_abs|].
  split; [intros; apply Z.mod_pos_bound; lia|]. split; [intros; now apply Z.mod_neg_bound|].
  unfold euclid_mod. apply Z.mod_pos_bound. lia.
Qed.

Lemma mul_eq_rem y a b r s : y <> 0 -> y * a + r = y * b + s -> (a = b <-> r = s).
Proof.
  intros N E. split; intros H; subst; [lia|].
  assert (H : y * a = y * b) by lia. now apply Z.mul_cancel_l in H.
Qed.

Lemma mod_agree x y : y <> 0 ->
  (Z.rem x y = euclid_mod x y /\ euclid_mod x y = x mod y) <-> (x mod y = 0 \/ (0 <= x /\ 0 < y)).
Proof.
  intros N. destruct (div_cases x y N) as (q & r & d & m & e & s & HQ & HR & HD & HM & HE & HS & E1 & E2 & E3 & R1 & R2 & R3 & M1 & M2 & S1).
  rewrite HR, HS, HM.
  assert (U : forall a b u v, x = y * a + u -> x = y * b + v -> Z.abs (u - v) < Z.abs y -> u = v).
  { intros a b u v A B L. assert (D : u - v = y * (b - a)) by lia.
    destruct (Z.eq_dec (b - a) 0) as [Z0|NZ]; [rewrite Z0 in D; lia|].
    rewrite D, Z.abs_mul in L. assert (1 <= Z.abs (b - a)) by lia. nia. }
  split.
  - intros [A B]. destruct (Z.eq_dec m 0); [auto|]. right. lia.
  - intros [M0 | [X Y]].
    + subst m. split; [|apply (U e d); lia].
      transitivity 0; [apply (U q d); lia | symmetry; apply (U e d); lia].
    + split; [apply (U q e); lia | apply (U e d); lia].
Qed.

Lemma div_agree x y : y <> 0 ->
  (Z.quot x y = euclid_div x y /\ euclid_div x y = x / y) <-> (x mod y = 0 \/ (0 <= x /\ 0 < y)).
Proof.
  intros N. rewrite <- (mod_agree x y N).
  destruct (div_cases x y N) as (q & r & d & m & e & s & HQ & HR & HD & HM & HE & HS & E1 & E2 & E3 & _).
  rewrite HQ, HE, HD, HR, HS, HM.
  rewrite (mul_eq_rem y q e r s), (mul_eq_rem y e d s m) by (auto; lia). tauto.
Qed.

(** ** sqrt *)

Lemma sqrt_one I : prelude_core I -> forall n, n = 0 \/ n = 1 \/ 64 < n -> integer_sqrt I n = 1.
Proof.
  intros C n H. unfold integer_sqrt. rewrite (ax_sqrt I C).
  destruct H as [->|[->|H]]; try reflexivity.
  destruct (n =? 0), (n =? 1); simpl; auto. rewrite (proj2 (Z.gtb_lt n 64)) by lia. reflexivity.
Qed.

Lemma sqrt_9 I : prelude_core I -> integer_sqrt I 9 = 2.
Proof. intros C. unfold integer_sqrt. do 3 (rewrite (ax_sqrt I C); vm_compute (_ || _); cbv iota; cbn -[s_sqrt_helper]). reflexivity. Qed.
