(** Properties C16-C20 and C26: the Racket library against the SMT prelude,
    Python, and mathematics. *)

From Coq Require Import ZArith List Bool String Lia.
From Verif Require Import SmtPrelude SmtProofs RktModel ListOps RktProofs.
Import ListNotations.
Local Open Scope Z_scope.
Local Open Scope list_scope.
Local Open Scope string_scope.

(** ** C16 *)

(** Full statement (false): for every IR list function [f] with Racket function
    [g], all arguments, and every model [I] of the prelude,
    [rkt_apply g args = smt_apply I f args].  Four kinds of difference: *)
Theorem C16_negative_tail_refuted : forall I, prelude_core I -> forall l i, i < 0 -> l <> [] ->
  get_list_fn "list_tail" = Some "list-tail-noerr" /\
  rkt_apply "list-tail-noerr" [DL l; DZ i] = Some (DL []) /\
  smt_apply I "list_tail" [DL l; DZ i] = Some (DL l).
Proof.
  intros I C l i N NE. split; [reflexivity|]. split.
  - simpl. now rewrite tail_noerr_neg.
  - simpl. now rewrite (ltail_is _ (core_li I C)), to_nat_neg by lia.
Qed.
Print Assumptions C16_negative_tail_refuted.

Theorem C16_negative_get_refuted : forall I, prelude_core I -> forall h t i, i < 0 -> h <> 0 ->
  get_list_fn "list_get" = Some "list-ref-noerr" /\
  rkt_apply "list-ref-noerr" [DL (h :: t); DZ i] = Some (DZ 0) /\
  smt_apply I "list_get" [DL (h :: t); DZ i] = Some (DZ h).
Proof.
  intros I C h t i N NE. split; [reflexivity|]. split.
  - simpl. rewrite ref_out_of_range by lia. reflexivity.
  - simpl. unfold list_get. rewrite (get_is _ (core_li I C) (h :: t) i 0) by (try discriminate; simpl; lia).
    now rewrite to_nat_neg by lia.
Qed.
Print Assumptions C16_negative_get_refuted.

Theorem C16_empty_row_refuted : forall I m,
  get_list_fn "matrix_prepend" = Some "matrix-prepend" /\
  rkt_apply "matrix-prepend" [DL []; DM m] = Some (DM m) /\
  smt_apply I "matrix_prepend" [DL []; DM m] = Some (DM ([] :: m)).
Proof. repeat split; reflexivity. Qed.
Print Assumptions C16_empty_row_refuted.

(** three-dimensional tensors: Racket has a result, SMT has no such function *)
Theorem C16_tensor3d_refuted : forall I f g args v,
  get_list_fn f = Some g -> rkt_apply g args = Some v -> Exists (fun a => exists t, a = DT t) args ->
  smt_apply I f args = None.
Proof.
  intros I f g args v _ _ E. destruct args as [|a1 [|a2 [|a3 [|]]]]; simpl;
    try (inversion E; fail);
    repeat match goal with a : dval |- _ => destruct a end; try reflexivity;
    exfalso; repeat match goal with
      | H : Exists _ _ |- _ => inversion H; clear H; subst
      | H : exists t, _ = DT t |- _ => destruct H; discriminate
      end.
Qed.
Print Assumptions C16_tensor3d_refuted.

(** the arguments on which both sides have the same meaning *)
Definition good_args (f : string) (args : list dval) : Prop :=
  match args with
  | [] => f <> "tensor3d_empty"
  | [DM m] => f <> "matrix_transpose"                                   (* see C26 *)
  | [DL l; DZ i] => (f = "list_get" -> 0 <= i < Z.of_nat (List.length l)) /\ (f = "list_tail" -> 0 <= i)
  | [DM m; DZ i] => (f = "matrix_get" -> 0 <= i < Z.of_nat (List.length m)) /\ (f = "matrix_tail" -> 0 <= i)
  | [DL r; DM m] => r <> []
  | [DL l; DZ st; DZ _] => 0 <= st
  | [DM m; DZ st; DZ en] =>
      0 <= st /\
      (f = "matrix_col_slice" -> Forall (fun r => (Z.to_nat st < Nat.min (Z.to_nat en) (List.length r))%nat) m) /\
      (f = "matrix_col_slice_with_length" ->
         Forall (fun r => (Z.to_nat st < Nat.min (Z.to_nat (st + en)) (List.length r))%nat) m)
  | _ => Forall (fun a => forall t, a <> DT t) args
  end.

Lemma in_table f g : get_list_fn f = Some g -> In (f, g) list_fn_table.
Proof.
  unfold get_list_fn. destruct (find _ _) eqn:F; [|discriminate]. intros [= <-].
  apply find_some in F as [IN E]. apply String.eqb_eq in E. subst. now destruct p.
Qed.

(** What holds: on these arguments every model of the prelude agrees with
    Racket, for every list function. *)
Theorem C16_list_operations_partial : forall I, prelude_core I -> forall f g args v,
  get_list_fn f = Some g -> rkt_apply g args = Some v -> good_args f args ->
  smt_apply I f args = Some v.
Proof.
  intros I C f g args v G R OK. apply in_table in G.
  pose proof (core_li I C) as HI. pose proof (core_lm I C) as HM.
  assert (SL : forall (st en : Z) (m : list (list Z)),
     Forall (fun r => (Z.to_nat st < Nat.min (Z.to_nat en) (List.length r))%nat) m ->
     Forall (fun r => skipn (Z.to_nat st) (firstn (Z.to_nat en) r) <> []) m).
  { intros st en m. apply Forall_impl. intros r L E. apply (f_equal (@List.length _)) in E.
    rewrite skipn_length, firstn_length in E. simpl in E. lia. }
  destruct args as [|[z1|b1|l1|m1|t1] [|[z2|b2|l2|m2|t2] [|[z3|b3|l3|m3|t3] [|a4 args]]]];
    try discriminate R; cbn [good_args] in OK;
    try (exfalso; inversion OK as [|? ? OK1 OK2]; subst; try (now eapply OK1);
         inversion OK2 as [|? ? OK3 OK4]; subst; try (now eapply OK3);
         inversion OK4 as [|? ? OK5]; subst; now eapply OK5);
    unfold list_fn_table in G; cbn [In] in G;
    repeat match type of G with _ \/ _ => destruct G as [G|G] end; try contradiction;
    injection G as <- <-;
    try (exfalso; apply OK; reflexivity);
    cbv [rkt_apply String.eqb Ascii.eqb Bool.eqb andb] in R; try discriminate R; injection R as <-; cbn -[In Z.mul];
    try (exfalso; congruence);
    try reflexivity.
  all: repeat match goal with H : _ /\ _ |- _ => destruct H end;
       repeat match goal with H : ?x = ?x -> _ |- _ => specialize (H eq_refl) end.
  all: try (do 2 f_equal; rewrite (length_is _ HI) || rewrite (length_is _ HM); reflexivity).
  all: try (do 2 f_equal; unfold list_get; rewrite (get_is _ HI _ _ 0), ref_in_range;
            [reflexivity | unfold zlen; lia | lia | intros ->; simpl in *; lia]).
  all: try (do 2 f_equal; unfold matrix_get; rewrite (get_is _ HM _ _ []), mref_in_range;
            [reflexivity | unfold zlen; lia | lia | intros ->; simpl in *; lia]).
  all: try (do 2 f_equal; rewrite (append_is _ HI) || rewrite (append_is _ HM); reflexivity).
  all: try (do 2 f_equal; rewrite (ltail_is _ HI) || rewrite (ltail_is _ HM); rewrite tail_noerr_is by lia; reflexivity).
  all: try (do 2 f_equal; rewrite (take_is _ HI) || rewrite (take_is _ HM); rewrite take_noerr_is; reflexivity).
  all: try (do 2 f_equal; unfold list_prepend; symmetry; apply matrix_prepend_nonempty; assumption).
  all: try (do 2 f_equal; apply (concat_is I C)).
  all: try (do 2 f_equal; unfold vec_slice_with_length, vec_slice_with_length_noerr; rewrite (vec_slice_is I C), slice_noerr_is by lia; reflexivity).
  all: try (do 2 f_equal; unfold matrix_row_slice_with_length, vec_slice_with_length_noerr; rewrite (row_slice_is I C), slice_noerr_is by lia; reflexivity).
  all: try (do 2 f_equal; rewrite (col_slice_is I C), col_slice_noerr_is by auto; reflexivity).
  all: try (do 2 f_equal; rewrite (ax_col_slice_len I C), (col_slice_is I C);
            unfold matrix_col_slice_with_length_noerr; rewrite col_slice_noerr_is by auto; reflexivity).
  (* list_eq *)
  - do 2 f_equal. destruct (list_eq_dec Z.eq_dec l1 l2) as [->|N].
    + symmetry. apply (eqb_list_spec Z Z.eqb Z.eqb_eq). reflexivity.
    + symmetry. destruct (eqb_list Z.eqb l1 l2) eqn:E; auto.
      apply (eqb_list_spec Z Z.eqb Z.eqb_eq) in E. contradiction.
  - do 2 f_equal. pose proof (eqb_list_spec _ _ (eqb_list_spec Z Z.eqb Z.eqb_eq)) as Q.
    destruct (list_eq_dec (list_eq_dec Z.eq_dec) m1 m2) as [->|N].
    + symmetry. apply Q. reflexivity.
    + symmetry. destruct (eqb_list (eqb_list Z.eqb) m1 m2) eqn:E; auto. apply Q in E. contradiction.
Qed.
Print Assumptions C16_list_operations_partial.

(** and every function of the table has such arguments *)
Example C16_nontrivial :
  good_args "list_get" [DL [4; 5; 6]; DZ 1] /\ rkt_apply "list-ref-noerr" [DL [4; 5; 6]; DZ 1] = Some (DZ 5) /\
  good_args "matrix_col_slice" [DM [[1; 2; 3]; [4; 5; 6]]; DZ 1; DZ 3] /\
  rkt_apply "matrix-col-slice-noerr" [DM [[1; 2; 3]; [4; 5; 6]]; DZ 1; DZ 3] = Some (DM [[2; 3]; [5; 6]]) /\
  good_args "list_concat" [DL [1; 2]; DL [3]] /\ rkt_apply "list-concat" [DL [1; 2]; DL [3]] = Some (DL [1; 2; 3]).
Proof.
  repeat split; try discriminate; try (simpl; lia).
  - intros _. repeat constructor.
  - repeat constructor; discriminate.
Qed.

(** ** C17 *)

(** Full statement (false): [Div] and [Mod] are the same function for Rosette
    (quotient, remainder), SMT (Euclidean) and Python (floor: Coq's [/], [mod]).
    Exact characterisation for a non-zero divisor: they agree iff the division is
    exact, or both operands are non-negative. *)
Theorem C17_div_partial : forall I x y, y <> 0 ->
  (quotient_noerr x y = smt_div I x y /\ smt_div I x y = x / y) <-> (x mod y = 0 \/ (0 <= x /\ 0 < y)).
Proof.
  intros I x y N. unfold quotient_noerr, smt_div. rewrite (proj2 (Z.eqb_neq y 0) N). now apply div_agree.
Qed.
Print Assumptions C17_div_partial.

Theorem C17_mod_partial : forall I x y, y <> 0 ->
  (rkt_remainder x y = Some (smt_mod I x y) /\ smt_mod I x y = x mod y) <-> (x mod y = 0 \/ (0 <= x /\ 0 < y)).
Proof.
  intros I x y N. unfold rkt_remainder, smt_mod. rewrite (proj2 (Z.eqb_neq y 0) N).
  rewrite <- (mod_agree x y N). split; intros [A B]; split; congruence.
Qed.
Print Assumptions C17_mod_partial.

(** e.g. -7 div 2: Rosette -3, SMT and Python -4; 7 div -2: Rosette and SMT -3, Python -4. *)
Theorem C17_negative_refuted : forall I,
  (quotient_noerr (-7) 2 = -3 /\ smt_div I (-7) 2 = -4 /\ -7 / 2 = -4) /\
  (quotient_noerr 7 (-2) = -3 /\ smt_div I 7 (-2) = -3 /\ 7 / -2 = -4) /\
  (rkt_remainder (-7) 2 = Some (-1) /\ smt_mod I (-7) 2 = 1 /\ (-7) mod 2 = 1) /\
  (rkt_remainder 7 (-2) = Some 1 /\ smt_mod I 7 (-2) = 1 /\ 7 mod -2 = -1).
Proof. intros I. vm_compute. repeat split. Qed.
Print Assumptions C17_negative_refuted.

(** By zero Python raises; Rosette gives the dividend (quotient) or fails
    (remainder); SMT may give anything. *)
Theorem C17_by_zero_refuted :
  (forall x, quotient_noerr x 0 = x /\ rkt_remainder x 0 = None) /\
  (forall x c, exists I, prelude_core I /\ smt_div I x 0 = c /\ smt_mod I x 0 = c).
Proof.
  split; [intros x; split; [apply Z.quot_1_r | reflexivity]|].
  intros x c.
  exists {| li := li std; lm := lm std; s_concat := s_concat std; s_contains := s_contains std;
    s_col_slice := s_col_slice std; s_col_slice_len := s_col_slice_len std;
    s_firsts := s_firsts std; s_rests := s_rests std; s_transpose := s_transpose std;
    s_exp := s_exp std; s_sqrt_helper := s_sqrt_helper std; s_div0 := fun _ => c; s_mod0 := fun _ => c |}.
  split; [|split; reflexivity].
  pose proof std_core as C. constructor; try apply C.
  intros n g. pose proof (ax_sqrt std C n g) as E. cbn [s_sqrt_helper] in *. rewrite E at 1.
  clear E. destruct (Z.eq_dec g 0) as [G|N]; [rewrite G; reflexivity|]. unfold smt_div. rewrite (proj2 (Z.eqb_neq g 0) N). reflexivity.
Qed.
Print Assumptions C17_by_zero_refuted.

(** ** C18 *)

(** Full statement (false): the Racket and SMT definitions are equal and
    [integer_sqrt n] is [Z.sqrt n].  Racket's [integer-sqrt-noerr] is the identity: *)
Theorem C18_racket_sqrt_refuted : forall n, 2 <= n ->
  integer_sqrt_noerr default_fuel n = Some n /\ n <> Z.sqrt n.
Proof.
  intros n N. split; [reflexivity|]. pose proof (Z.sqrt_lt_lin n ltac:(lia)). lia.
Qed.
Print Assumptions C18_racket_sqrt_refuted.

(** SMT's [integer_sqrt] is 1 for every [n > 64] (never the square root), is
    2 for 9, and is not determined at all for 16. *)
Theorem C18_smt_sqrt_refuted :
  (forall I, prelude_core I -> forall n, 64 < n -> integer_sqrt I n = 1 /\ Z.sqrt n <> 1) /\
  (forall I, prelude_core I -> integer_sqrt I 9 = 2) /\
  (forall c, exists I, prelude_core I /\ integer_sqrt I 16 = c).
Proof.
  split; [|split].
  - intros I C n N. split; [apply (sqrt_one I C); lia|].
    pose proof (Z.sqrt_le_mono 64 n ltac:(lia)) as L. change (Z.sqrt 64) with 8 in L. lia.
  - apply sqrt_9.
  - intros c. exists (std_with c). split; [apply std_with_core|]. vm_compute. reflexivity.
Qed.
Print Assumptions C18_smt_sqrt_refuted.

(** Racket runs out of fuel for every exponent from 64 on, where SMT has a value *)
Theorem C18_exp_fuel_refuted : forall I, prelude_core I -> forall n, 64 <= n ->
  integer_exp_noerr default_fuel n = None /\ s_exp I n = 3 ^ n mod 64.
Proof.
  intros I C n N. split; [apply exp_noerr_fuel; unfold default_fuel; lia|].
  rewrite (exp_is I C). now rewrite Z.max_r by lia.
Qed.
Print Assumptions C18_exp_fuel_refuted.

(** What holds: [integer_exp] is the same function below 64, powers of three
    modulo 64. *)
Theorem C18_exp_partial : forall I, prelude_core I -> forall n, n < 64 ->
  integer_exp_noerr default_fuel n = Some (s_exp I n) /\ s_exp I n = 3 ^ (Z.max 0 n) mod 64.
Proof.
  intros I C n N. rewrite (exp_is I C). split; [|reflexivity].
  apply exp_noerr_is. unfold default_fuel. lia.
Qed.
Print Assumptions C18_exp_partial.

Example C18_nontrivial : prelude_core std /\ integer_exp_noerr default_fuel 5 = Some 51 /\ s_exp std 5 = 51 /\
  integer_exp_noerr default_fuel 63 = Some 43.
Proof. split; [exact std_core|]. vm_compute. repeat split. Qed.

(** ** C19 *)

(** The set values that can be built with the operations of the IR's [Set]
    (ir.py:1602-1686: empty, singleton, add, remove, union, difference), together
    with the mathematical set that the same operations describe. *)
Inductive built : list Z -> (Z -> Prop) -> Prop :=
| b_empty : built set_create (fun _ => False)
| b_single v : built (set_singleton v) (fun x => x = v)
| b_add v s P : built s P -> built (set_insert v s) (fun x => x = v \/ P x)
| b_remove v s P : built s P -> built (set_minus s (set_singleton v)) (fun x => P x /\ x <> v)
| b_union s P s' P' : built s P -> built s' P' -> built (set_union s s') (fun x => P x \/ P' x)
| b_minus s P s' P' : built s P -> built s' P' -> built (set_minus s s') (fun x => P x /\ ~ P' x).

Lemma built_inv s P : built s P -> ssorted s /\ (forall x, In x s <-> P x).
Proof.
  assert (S1 : forall v, ssorted (set_singleton v)) by (intros; constructor; constructor).
  induction 1 as [| | v s P B [S E] | v s P B [S E] | s P s' P' B [S E] B' [S' E'] | s P s' P' B [S E] B' [S' E']].
  - split; [constructor | simpl; tauto].
  - split; [auto|]. simpl. intros x. split; intros; [destruct H; auto; contradiction | auto].
  - split; [apply set_union_sorted; auto|]. intros x. unfold set_insert. rewrite set_union_in, E. simpl. intuition.
  - split; [apply set_minus_sorted; auto|]. intros x. rewrite set_minus_in, E by auto. simpl. intuition.
  - split; [apply set_union_sorted; auto|]. intros x. rewrite set_union_in, E, E'. tauto.
  - split; [apply set_minus_sorted; auto|]. intros x. rewrite set_minus_in, E, E' by auto. tauto.
Qed.

Theorem C19_sets : forall s P, built s P ->
  (forall v, set_member v s = true <-> P v) /\
  NoDup s /\
  (forall s' P', built s' P' ->
     (set_eq s s' = true <-> (forall v, P v <-> P' v)) /\
     (set_subset s s' = true <-> (forall v, P v -> P' v))).
Proof.
  intros s P B. destruct (built_inv s P B) as [S E]. split; [|split].
  - intros v. rewrite <- E. unfold set_member. rewrite existsb_exists. split.
    + intros (x & IN & EQ). apply Z.eqb_eq in EQ. now subst.
    + intros IN. exists v. split; auto. apply Z.eqb_refl.
  - clear -S. induction S; constructor; auto. now apply ssorted_notin.
  - intros s' P' B'. destruct (built_inv s' P' B') as [S' E']. split.
    + unfold set_eq. rewrite (eqb_list_spec Z Z.eqb Z.eqb_eq). split.
      * intros -> v. rewrite <- E, <- E'. tauto.
      * intros EQ. apply ssorted_ext; auto. intros x. rewrite E, E'. auto.
    + rewrite set_subset_spec by auto. unfold incl. split.
      * intros H v. rewrite <- E, <- E'. auto.
      * intros H v. rewrite E, E'. auto.
Qed.
Print Assumptions C19_sets.

Example C19_nontrivial :
  built (set_minus (set_union (set_insert 3 (set_singleton 5)) (set_insert 1 (set_singleton 3))) (set_singleton 5))
        (fun x => ((x = 3 \/ x = 5) \/ (x = 1 \/ x = 3)) /\ x <> 5) /\
  set_minus (set_union (set_insert 3 (set_singleton 5)) (set_insert 1 (set_singleton 3))) (set_singleton 5) = [1; 3].
Proof. split; [|reflexivity]. apply b_remove. apply b_union; apply b_add; apply b_single. Qed.

Local Open Scope Z_scope.

(** ** C20 *)

(** maps built by the operations, with the finite map they describe *)
Inductive mbuilt : list (Z * Z) -> (Z -> option Z) -> Prop :=
| m_empty : mbuilt map_create (fun _ => None)
| m_insert k v m f : mbuilt m f -> mbuilt (map_insert m k v) (fun x => if k =? x then Some v else f x).

Lemma mbuilt_inv m f : mbuilt m f -> forall x,
  map_get m x = match f x with Some v => v | None => 0 end /\ (In x (map fst m) <-> f x <> None).
Proof.
  induction 1 as [|k v m f B IH]; intros x.
  - simpl. split; auto. tauto.
  - destruct (IH x) as [G K]. unfold map_insert.
    destruct (map_contains_spec m k) as [[-> IN]|[-> NI]]; cbn [Z.eqb].
    + rewrite map_get_set, list_set_keys by auto. destruct (Z.eqb_spec k x) as [->|N]; [|auto].
      split; auto. split; [discriminate | auto].
    + rewrite map_get_app, map_app, in_app_iff by auto. simpl. destruct (Z.eqb_spec k x) as [->|N]; [|rewrite <- K; tauto].
      split; auto. split; [discriminate | auto].
Qed.

(** Lookup (0 for an absent key) and membership (as the numbers 1 and 0) are
    those of the finite map; keys are unique. *)
Theorem C20_maps_partial : forall m f, mbuilt m f ->
  (forall k, map_get m k = match f k with Some v => v | None => 0 end) /\
  (forall k, map_contains m k = if f k then 1 else 0) /\
  NoDup (map fst m).
Proof.
  intros m f B. split; [|split].
  - intros k. apply (mbuilt_inv m f B k).
  - intros k. destruct (mbuilt_inv m f B k) as [_ K].
    destruct (map_contains_spec m k) as [[-> IN]|[-> NI]].
    + destruct (f k); [reflexivity|]. destruct (proj1 K IN eq_refl).
    + destruct (f k) eqn:E; [|reflexivity]. destruct NI. apply K. discriminate.
  - induction B as [|k v m f B IH]; [constructor|]. unfold map_insert.
    destruct (map_contains_spec m k) as [[-> IN]|[-> NI]]; cbn [Z.eqb].
    + now rewrite list_set_keys.
    + rewrite map_app. simpl. clear -IH NI. induction (map fst m) as [|a l IHl]; simpl in *.
      * constructor; [simpl; tauto | constructor].
      * inversion IH; subst. constructor; [|apply IHl; auto]. rewrite in_app_iff. simpl. intuition.
Qed.
Print Assumptions C20_maps_partial.

Example C20_nontrivial : exists f, mbuilt (map_insert (map_insert (map_insert map_create 1 10) 2 20) 1 30) f /\
  f 1 = Some 30 /\ f 2 = Some 20 /\ f 3 = None /\
  map_insert (map_insert (map_insert map_create 1 10) 2 20) 1 30 = [(1, 30); (2, 20)].
Proof. eexists. split; [apply m_insert, m_insert, m_insert, m_empty|]. repeat split. Qed.

(** Full statement also false: [map-eq] depends on the insertion order ... *)
Theorem C20_eq_refuted : exists m m' f f', mbuilt m f /\ mbuilt m' f' /\ (forall k, f k = f' k) /\ map_eq m m' = false.
Proof.
  exists (map_insert (map_insert map_create 1 10) 2 20), (map_insert (map_insert map_create 2 20) 1 10).
  do 2 eexists. split; [apply m_insert, m_insert, m_empty|]. split; [apply m_insert, m_insert, m_empty|].
  split; [|reflexivity]. intros k. cbv beta. destruct (Z.eqb_spec 2 k), (Z.eqb_spec 1 k); auto. lia.
Qed.
Print Assumptions C20_eq_refuted.

(** ... and [map-normalize], which is applied to every symbolic map
    (rosette_translator.py:124), fails on every non-empty map. *)
Theorem C20_normalize_refuted : forall p m, map_normalize (p :: m) = None.
Proof. reflexivity. Qed.
Print Assumptions C20_normalize_refuted.

(** ** C26 *)

(** Full statement (false): for every rectangular matrix both definitions give the
    matrix with entry (i,j) at (j,i).  SMT: no interpretation of
    [matrix_transpose] satisfies its definition ([C21_every_matrix_refuted]).
    Racket: fails for lack of fuel when there are 64 columns or rows, ... *)
Theorem C26_fuel_refuted : exists m, rect 64 m /\ m <> [] /\ matrix_transpose_noerr default_fuel m = None.
Proof.
  exists [repeat 1 64]. split; [repeat constructor|]. split; [discriminate|]. vm_compute. reflexivity.
Qed.
Print Assumptions C26_fuel_refuted.

(** ... and invents a row of zeros for a matrix whose rows are empty. *)
Theorem C26_empty_rows_refuted : rect 0 [[]; []] /\ matrix_transpose_noerr default_fuel [[]; []] = Some [[0; 0]].
Proof. split; [repeat constructor | reflexivity]. Qed.
Print Assumptions C26_empty_rows_refuted.

(** What holds: within the fuel, Racket's function transposes every rectangular
    matrix with at least one row and one column, and twice is the identity. *)
Theorem C26_transpose_partial : forall m c, m <> [] -> Forall (fun r => List.length r = c) m -> (0 < c)%nat ->
  (List.length m + c < default_fuel)%nat ->
  exists t, matrix_transpose_noerr default_fuel m = Some t /\
    List.length t = c /\ Forall (fun r => List.length r = List.length m) t /\
    (forall i j, (i < List.length m)%nat -> (j < c)%nat -> nth i (nth j t []) 0 = nth j (nth i m []) 0) /\
    matrix_transpose_noerr default_fuel t = Some m.
Proof.
  intros m c NE R C L. destruct c as [|c]; [lia|].
  exists (transposed (S c) m). split; [apply transpose_is; auto|].
  assert (LT : List.length (transposed (S c) m) = S c) by (unfold transposed; now rewrite map_length, seq_length).
  split; [exact LT|]. split; [apply transposed_rect|]. split; [intros; now apply transposed_entry|].
  destruct (List.length m) as [|n] eqn:LM; [destruct m; [congruence | discriminate]|].
  rewrite (transpose_is n).
  - f_equal. rewrite <- LM. now apply transposed_twice.
  - unfold transposed. discriminate.
  - pose proof (transposed_rect (S c) m) as T. now rewrite LM in T.
  - rewrite LT. lia.
Qed.
Print Assumptions C26_transpose_partial.

Example C26_nontrivial : Forall (fun r => List.length r = 3%nat) [[1; 2; 3]; [4; 5; 6]] /\
  matrix_transpose_noerr default_fuel [[1; 2; 3]; [4; 5; 6]] = Some [[1; 4]; [2; 5]; [3; 6]].
Proof. split; [repeat constructor | reflexivity]. Qed.
