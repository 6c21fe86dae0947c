(** When does an interpretation of called functions follow one of the two list
    libraries?  Reference definitions for the theorems about IR expressions that
    call library functions; no model of code in /repo. *)

From Coq Require Import String List ZArith Bool Lia.
From Verif Require Import Ast Semantics SmtPrelude SmtProofs RktModel RktProofs ListOps.
Import ListNotations.
Local Open Scope Z_scope.
Local Open Scope string_scope.

(** vectors, matrices and 3-tensors of integers as values *)
Definition vl (l : list Z) : val := VList (map VInt l).
Definition vm (m : list (list Z)) : val := VList (map vl m).
Definition vt (t : list (list (list Z))) : val := VList (map vm t).

Definition emb (d : dval) : val :=
  match d with
  | DZ z => VInt z | DB b => VBool b | DL l => vl l | DM m => vm m | DT t => vt t
  end.

(** calls that the library can execute have the library's result *)
Definition follows (ap : string -> list dval -> option dval) (I : interp) : Prop :=
  forall f args v, ap f args = Some v -> i_call I f (map emb args) = Some (emb v).

(** the meaning in the synthesis backend: names are translated by [get_list_fn] *)
Definition rkt_call (f : string) (args : list dval) : option dval :=
  match get_list_fn f with Some g => rkt_apply g args | None => None end.

(** What both libraries have in common: the list functions on arguments that are
    in range.  [e]: whether rows that are empty are kept by [matrix_prepend]. *)
Record list_lib (e : bool) (I : interp) : Prop := {
  lib_len : forall l, i_call I "list_length" [vl l] = Some (VInt (zlen l));
  lib_mlen : forall m, i_call I "matrix_length" [vm m] = Some (VInt (zlen m));
  lib_get0 : forall x l, i_call I "list_get" [vl (x :: l); VInt 0] = Some (VInt x);
  lib_mget0 : forall x m, i_call I "matrix_get" [vm (x :: m); VInt 0] = Some (vl x);
  lib_mget_nil : exists r, i_call I "matrix_get" [vm []; VInt 0] = Some (vl r);
  lib_tail1 : forall x l, i_call I "list_tail" [vl (x :: l); VInt 1] = Some (vl l);
  lib_mtail1 : forall x m, i_call I "matrix_tail" [vm (x :: m); VInt 1] = Some (vm m);
  lib_empty : i_call I "list_empty" [] = Some (vl []);
  lib_mempty : i_call I "matrix_empty" [] = Some (vm []);
  lib_prepend : forall x l, i_call I "list_prepend" [VInt x; vl l] = Some (vl (x :: l));
  lib_mprepend : forall x m, e = true \/ x <> [] -> i_call I "matrix_prepend" [vl x; vm m] = Some (vm (x :: m)) }.

Ltac fol E := let H := fresh in pose proof E as H; cbn [map emb] in H; rewrite H; clear H.

Lemma smt_list_lib S I : prelude_core S -> follows (smt_apply S) I -> list_lib true I.
Proof.
  intros P F. pose proof (core_li S P) as HI. pose proof (core_lm S P) as HM.
  constructor; intros.
  - fol (F "list_length" [DL l] _ eq_refl). now rewrite (length_is _ HI).
  - fol (F "matrix_length" [DM m] _ eq_refl). now rewrite (length_is _ HM).
  - fol (F "list_get" [DL (x :: l); DZ 0] _ eq_refl). now rewrite (get0 S P).
  - fol (F "matrix_get" [DM (x :: m); DZ 0] _ eq_refl). now rewrite (mget0 S P).
  - exists (matrix_get S [] 0). exact (F "matrix_get" [DM []; DZ 0] _ eq_refl).
  - fol (F "list_tail" [DL (x :: l); DZ 1] _ eq_refl). now rewrite (ltail_is _ HI).
  - fol (F "matrix_tail" [DM (x :: m); DZ 1] _ eq_refl). now rewrite (mtail1 S P).
  - exact (F "list_empty" [] _ eq_refl).
  - exact (F "matrix_empty" [] _ eq_refl).
  - exact (F "list_prepend" [DZ x; DL l] _ eq_refl).
  - exact (F "matrix_prepend" [DL x; DM m] _ eq_refl).
Qed.

Lemma rkt_list_lib I : follows rkt_call I -> list_lib false I.
Proof.
  intros F. constructor; intros.
  - exact (F "list_length" [DL l] _ eq_refl).
  - exact (F "matrix_length" [DM m] _ eq_refl).
  - fol (F "list_get" [DL (x :: l); DZ 0] _ eq_refl). unfold list_ref_noerr, in_range, zlen.
    destruct (Z.ltb_spec 0 (Z.of_nat (Datatypes.length (x :: l)))); [reflexivity | simpl in *; lia].
  - fol (F "matrix_get" [DM (x :: m); DZ 0] _ eq_refl). unfold matrix_ref_noerr, in_range, zlen.
    destruct (Z.ltb_spec 0 (Z.of_nat (Datatypes.length (x :: m)))); [reflexivity | simpl in *; lia].
  - exists []. exact (F "matrix_get" [DM []; DZ 0] _ eq_refl).
  - fol (F "list_tail" [DL (x :: l); DZ 1] _ eq_refl). unfold list_tail_noerr.
    destruct l; [reflexivity|]. unfold zlen. simpl Datatypes.length.
    destruct (Z.leb_spec 0 1); [|lia]. destruct (Z.leb_spec 1 (Z.of_nat (S (S (Datatypes.length l))))); try lia; reflexivity.
  - fol (F "matrix_tail" [DM (x :: m); DZ 1] _ eq_refl). unfold list_tail_noerr.
    destruct m; [reflexivity|]. unfold zlen. simpl Datatypes.length.
    destruct (Z.leb_spec 0 1); [|lia]. destruct (Z.leb_spec 1 (Z.of_nat (S (S (Datatypes.length m))))); try lia; reflexivity.
  - exact (F "list_empty" [] _ eq_refl).
  - exact (F "matrix_empty" [] _ eq_refl).
  - exact (F "list_prepend" [DZ x; DL l] _ eq_refl).
  - fol (F "matrix_prepend" [DL x; DM m] _ eq_refl). unfold matrix_prepend.
    destruct H as [H|H]; [discriminate|]. destruct x; [congruence | reflexivity].
Qed.
