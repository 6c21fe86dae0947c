(** The list functions that reading a solution introduces. *)

From Coq Require Import String List ZArith Bool Lia.
From Verif Require Import Ast Dict Semantics SmtPrelude SmtProofs RktModel RktProofs ListOps LibSem ObjModel Properties_Rkt Properties_Obj LmModel LmSem LmProofs.
Import ListNotations.
Local Open Scope string_scope.
Local Open Scope list_scope.
Local Open Scope Z_scope.

Lemma py_len_map A B (f : A -> B) l : py_len (map f l) = py_len l.
Proof. unfold py_len. now rewrite map_length. Qed.
Lemma py_index_map A B (f : A -> B) l z : py_index (map f l) z = option_map f (py_index l z).
Proof.
  unfold py_index. rewrite py_len_map. cbv zeta. destruct (_ && _); [|reflexivity]. now rewrite nth_error_map.
Qed.
Lemma py_slice_map A B (f : A -> B) l i j : py_slice (map f l) i j = map f (py_slice l i j).
Proof.
  unfold py_slice, py_bound. rewrite py_len_map. cbv zeta. now rewrite skipn_map, firstn_map.
Qed.
Lemma index_range A (l : list A) z x : 0 <= z -> py_index l z = Some x -> 0 <= z < py_len l.
Proof.
  intros P H. unfold py_index in H. rewrite (proj2 (Z.ltb_ge z 0) P) in H.
  destruct ((0 <=? z) && (z <? py_len l)) eqn:C; [|discriminate]. apply andb_true_iff in C as [C1 C2]. lia.
Qed.

Section Lib.
  Variable I : interp.
  Hypothesis B : backend I.

  (** calls that both libraries can execute have some result *)
  Lemma some_call f args (P : dval -> Prop) :
    (exists v, rkt_call f args = Some v /\ P v) -> (forall S, exists v, smt_apply S f args = Some v /\ P v) ->
    exists v, i_call I f (map emb args) = Some (emb v) /\ P v.
  Proof.
    intros (v & R & Pv) Q. destruct B as [F|(S & _ & F)].
    - exists v. split; [now apply F|exact Pv].
    - destruct (Q S) as (w & R' & Pw). exists w. split; [now apply F|exact Pw].
  Qed.
  Definition isZ (d : dval) := exists z, d = DZ z.
  Definition isL (d : dval) := exists l, d = DL l.
  Definition isM (d : dval) := exists m, d = DM m.
  Ltac sc := apply some_call; [eexists; split; [reflexivity|eexists; reflexivity]|intros; eexists; split; [reflexivity|eexists; reflexivity]].

  Lemma list_length_is l : i_call I "list_length" [vl l] = Some (VInt (py_len l)).
  Proof. refine (both I "list_length" "length" [DL l] _ B eq_refl eq_refl _). cbn. repeat constructor; discriminate. Qed.
  Lemma matrix_length_is m : i_call I "matrix_length" [vm m] = Some (VInt (py_len m)).
  Proof. refine (both I "matrix_length" "matrix-length" [DM m] _ B eq_refl eq_refl _). cbn. discriminate. Qed.
  Lemma list_concat_is l l' : i_call I "list_concat" [vl l; vl l'] = Some (vl (l ++ l')).
  Proof. refine (both I "list_concat" "list-concat" [DL l; DL l'] _ B eq_refl eq_refl _). cbn. repeat constructor; discriminate. Qed.
  Lemma list_empty_is : i_call I "list_empty" [] = Some (vl []).
  Proof. refine (both I "list_empty" "list-empty" [] _ B eq_refl eq_refl _). cbn. discriminate. Qed.
  Lemma matrix_empty_is : i_call I "matrix_empty" [] = Some (vm []).
  Proof. refine (both I "matrix_empty" "matrix-empty" [] _ B eq_refl eq_refl _). cbn. discriminate. Qed.

  Lemma list_get_is l z : exists x, i_call I "list_get" [vl l; VInt z] = Some (VInt x) /\
    forall y, 0 <= z -> py_index l z = Some y -> y = x.
  Proof.
    assert (T : exists v, i_call I "list_get" (map emb [DL l; DZ z]) = Some (emb v) /\ isZ v) by sc.
    destruct T as (v & E & x & ->). exists x. split; [exact E|]. intros y P X. pose proof (index_range _ _ _ _ P X) as R.
    assert (E' : i_call I "list_get" [vl l; VInt z] = Some (VInt y)).
    { refine (both I "list_get" "list-ref-noerr" [DL l; DZ z] (DZ y) B eq_refl _ _).
      - cbn. do 2 f_equal. rewrite ref_in_range by exact R. rewrite (index_ok _ l 0 z R) in X. congruence.
      - cbn. split; auto; discriminate. }
    cbn in E. rewrite E in E'. congruence.
  Qed.
  Lemma matrix_get_is m z : exists x, i_call I "matrix_get" [vm m; VInt z] = Some (vl x) /\
    forall y, 0 <= z -> py_index m z = Some y -> vl y = vl x.
  Proof.
    assert (T : exists v, i_call I "matrix_get" (map emb [DM m; DZ z]) = Some (emb v) /\ isL v) by sc.
    destruct T as (v & E & x & ->). exists x. split; [exact E|]. intros y P X. pose proof (index_range _ _ _ _ P X) as R.
    assert (E' : i_call I "matrix_get" [vm m; VInt z] = Some (vl y)).
    { refine (both I "matrix_get" "matrix-ref-noerr" [DM m; DZ z] (DL y) B eq_refl _ _).
      - cbn. do 2 f_equal. rewrite mref_in_range by exact R. rewrite (index_ok _ m [] z R) in X. congruence.
      - cbn. split; auto; discriminate. }
    cbn in E. rewrite E in E'. congruence.
  Qed.

  (** the three kinds of slices on vectors and on matrices *)
  Lemma list_tail_is l i : exists x, i_call I "list_tail" [vl l; VInt i] = Some (vl x) /\
    (0 <= i -> vl (py_slice l (Some i) None) = vl x).
  Proof.
    assert (T : exists v, i_call I "list_tail" (map emb [DL l; DZ i]) = Some (emb v) /\ isL v) by sc.
    destruct T as (v & E & x & ->). exists x. split; [exact E|]. intros P.
    assert (E' : i_call I "list_tail" [vl l; VInt i] = Some (vl (py_slice l (Some i) None))).
    { refine (both I "list_tail" "list-tail-noerr" [DL l; DZ i] (DL _) B eq_refl _ _); [|cbn; split; [discriminate|auto]].
      cbn. do 2 f_equal. rewrite tail_noerr_is by lia. now apply slice_suffix. }
    cbn in E. rewrite E in E'. congruence.
  Qed.
  Lemma matrix_tail_is m i : exists x, i_call I "matrix_tail" [vm m; VInt i] = Some (vm x) /\
    (0 <= i -> vm (py_slice m (Some i) None) = vm x).
  Proof.
    assert (T : exists v, i_call I "matrix_tail" (map emb [DM m; DZ i]) = Some (emb v) /\ isM v) by sc.
    destruct T as (v & E & x & ->). exists x. split; [exact E|]. intros P.
    assert (E' : i_call I "matrix_tail" [vm m; VInt i] = Some (vm (py_slice m (Some i) None))).
    { refine (both I "matrix_tail" "matrix-tail-noerr" [DM m; DZ i] (DM _) B eq_refl _ _); [|cbn; split; [discriminate|auto]].
      cbn. do 2 f_equal. rewrite tail_noerr_is by lia. now apply slice_suffix. }
    cbn in E. rewrite E in E'. congruence.
  Qed.
  Lemma list_take_is l j : exists x, i_call I "list_take" [vl l; VInt j] = Some (vl x) /\
    (0 <= j -> vl (py_slice l None (Some j)) = vl x).
  Proof.
    assert (T : exists v, i_call I "list_take" (map emb [DL l; DZ j]) = Some (emb v) /\ isL v) by sc.
    destruct T as (v & E & x & ->). exists x. split; [exact E|]. intros P.
    assert (E' : i_call I "list_take" [vl l; VInt j] = Some (vl (py_slice l None (Some j)))).
    { refine (both I "list_take" "list-take-noerr" [DL l; DZ j] (DL _) B eq_refl _ _); [|cbn; split; discriminate].
      cbn. do 2 f_equal. rewrite take_noerr_is. now apply slice_prefix. }
    cbn in E. rewrite E in E'. congruence.
  Qed.
  Lemma matrix_take_is m j : exists x, i_call I "matrix_take" [vm m; VInt j] = Some (vm x) /\
    (0 <= j -> vm (py_slice m None (Some j)) = vm x).
  Proof.
    assert (T : exists v, i_call I "matrix_take" (map emb [DM m; DZ j]) = Some (emb v) /\ isM v) by sc.
    destruct T as (v & E & x & ->). exists x. split; [exact E|]. intros P.
    assert (E' : i_call I "matrix_take" [vm m; VInt j] = Some (vm (py_slice m None (Some j)))).
    { refine (both I "matrix_take" "matrix-take-noerr" [DM m; DZ j] (DM _) B eq_refl _ _); [|cbn; split; discriminate].
      cbn. do 2 f_equal. rewrite take_noerr_is. now apply slice_prefix. }
    cbn in E. rewrite E in E'. congruence.
  Qed.
  Lemma vec_slice_is l i j : exists x, i_call I "vec_slice" [vl l; VInt i; VInt j] = Some (vl x) /\
    (0 <= i -> 0 <= j -> vl (py_slice l (Some i) (Some j)) = vl x).
  Proof.
    assert (T : exists v, i_call I "vec_slice" (map emb [DL l; DZ i; DZ j]) = Some (emb v) /\ isL v) by sc.
    destruct T as (v & E & x & ->). exists x. split; [exact E|]. intros P Q.
    assert (E' : i_call I "vec_slice" [vl l; VInt i; VInt j] = Some (vl (py_slice l (Some i) (Some j)))).
    { refine (both I "vec_slice" "vec-slice-noerr" [DL l; DZ i; DZ j] (DL _) B eq_refl _ _); [|exact P].
      cbn. do 2 f_equal. rewrite slice_noerr_is by lia. now apply slice_middle. }
    cbn in E. rewrite E in E'. congruence.
  Qed.
  Lemma row_slice_is m i j : exists x, i_call I "matrix_row_slice" [vm m; VInt i; VInt j] = Some (vm x) /\
    (0 <= i -> 0 <= j -> vm (py_slice m (Some i) (Some j)) = vm x).
  Proof.
    assert (T : exists v, i_call I "matrix_row_slice" (map emb [DM m; DZ i; DZ j]) = Some (emb v) /\ isM v) by sc.
    destruct T as (v & E & x & ->). exists x. split; [exact E|]. intros P Q.
    assert (E' : i_call I "matrix_row_slice" [vm m; VInt i; VInt j] = Some (vm (py_slice m (Some i) (Some j)))).
    { refine (both I "matrix_row_slice" "matrix-row-slice-noerr" [DM m; DZ i; DZ j] (DM _) B eq_refl _ _); [|cbn; split; [exact P|split; discriminate]].
      cbn. do 2 f_equal. rewrite slice_noerr_is by lia. now apply slice_middle. }
    cbn in E. rewrite E in E'. congruence.
  Qed.
End Lib.
