(** Application of the list functions of the IR under the SMT prelude. *)

From Coq Require Import ZArith List Bool String.
From Verif Require Import SmtPrelude RktModel.
Import ListNotations.
Local Open Scope Z_scope.
Local Open Scope string_scope.

(** ir.py:2495-2560 [Call.toSMT]: the IR name is used as it is, except that
    [list_eq] becomes [=].  [None]: the name is not declared for these sorts in
    the prelude (so the query is rejected by the solver). *)
Definition smt_apply (I : smt) (f : string) (args : list dval) : option dval :=
  match args with
  | [] =>
      if String.eqb f "list_empty" then Some (DL [])
      else if String.eqb f "matrix_empty" then Some (DM [])
      else None
  | [DL l] => if String.eqb f "list_length" then Some (DZ (s_length (li I) l)) else None
  | [DM m] =>
      if String.eqb f "matrix_length" then Some (DZ (s_length (lm I) m))
      else if String.eqb f "matrix_transpose" then Some (DM (s_transpose I m))
      else None
  | [DL l; DZ i] =>
      if String.eqb f "list_get" then Some (DZ (list_get I l i))
      else if String.eqb f "list_append" then Some (DL (s_append (li I) l i))
      else if String.eqb f "list_tail" then Some (DL (s_ltail (li I) l i))
      else if String.eqb f "list_take" then Some (DL (s_take (li I) l i))
      else None
  | [DM m; DZ i] =>
      if String.eqb f "matrix_get" then Some (DL (matrix_get I m i))
      else if String.eqb f "matrix_tail" then Some (DM (s_ltail (lm I) m i))
      else if String.eqb f "matrix_take" then Some (DM (s_take (lm I) m i))
      else None
  | [DM m; DL r] => if String.eqb f "matrix_append" then Some (DM (s_append (lm I) m r)) else None
  | [DZ i; DL l] => if String.eqb f "list_prepend" then Some (DL (list_prepend i l)) else None
  | [DL r; DM m] => if String.eqb f "matrix_prepend" then Some (DM (list_prepend r m)) else None
  | [DL l; DL l'] =>
      if String.eqb f "list_concat" then Some (DL (s_concat I l l'))
      else if String.eqb f "list_eq" then Some (DB (if list_eq_dec Z.eq_dec l l' then true else false))
      else None
  | [DM m; DM m'] =>
      if String.eqb f "list_eq" then Some (DB (if list_eq_dec (list_eq_dec Z.eq_dec) m m' then true else false))
      else None
  | [DL l; DZ st; DZ en] =>
      if String.eqb f "vec_slice" then Some (DL (vec_slice I l st en))
      else if String.eqb f "vec_slice_with_length" then Some (DL (vec_slice_with_length I l st en))
      else None
  | [DM m; DZ st; DZ en] =>
      if String.eqb f "matrix_row_slice" then Some (DM (matrix_row_slice I m st en))
      else if String.eqb f "matrix_row_slice_with_length" then Some (DM (matrix_row_slice_with_length I m st en))
      else if String.eqb f "matrix_col_slice" then Some (DM (s_col_slice I m st en))
      else if String.eqb f "matrix_col_slice_with_length" then Some (DM (s_col_slice_len I m st en))
      else None
  | _ => None
  end.
