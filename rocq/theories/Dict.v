(** Python dictionaries with string keys, as association lists in insertion
    order, and printing of integers. *)

From Coq Require Import String List ZArith Bool Lia Decimal DecimalString DecimalNat DecimalZ.
Import ListNotations.
Local Open Scope string_scope.
Set Implicit Arguments.

Section Dict.
  Variable V : Type.
  Definition dict : Type := list (string * V).

  (** [d.get(k)] *)
  Fixpoint dget (d : dict) (k : string) : option V :=
    match d with
    | [] => None
    | (k', v) :: r => if String.eqb k k' then Some v else dget r k
    end.

  (** [k in d] *)
  Definition dmem (d : dict) (k : string) : bool :=
    match dget d k with Some _ => true | None => false end.

  (** [d[k] = v]: overwrites in place, otherwise appends. *)
  Fixpoint dset (d : dict) (k : string) (v : V) : dict :=
    match d with
    | [] => [(k, v)]
    | (k', v') :: r =>
        if String.eqb k k' then (k', v) :: r else (k', v') :: dset r k v
    end.

  (** [del d[k]] (the caller checks that [k] is present). *)
  Fixpoint ddel (d : dict) (k : string) : dict :=
    match d with
    | [] => []
    | (k', v') :: r => if String.eqb k k' then r else (k', v') :: ddel r k
    end.

  (** [d.keys()] *)
  Definition dkeys (d : dict) : list string := map fst d.
End Dict.

(** [x in list_of_strings] *)
Definition smem (x : string) (l : list string) : bool := existsb (String.eqb x) l.

(** Python's [str(n)] / ["%d" % n] *)
Definition string_of_nat (n : nat) : string := NilEmpty.string_of_uint (Nat.to_uint n).
Definition string_of_Z (z : Z) : string := NilEmpty.string_of_int (Z.to_int z).
