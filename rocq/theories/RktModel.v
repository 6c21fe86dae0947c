(** The Racket functions used during synthesis (metalift/utils/utils.rkt and
    bounded.rkt), and the table that maps IR names to them (ir.py:363-454).
    Integers are Racket integers ([Z]); Rosette's optional 6-bit mode
    (rosette_translator.py:327) is not modelled. *)

From Coq Require Import ZArith List Bool String.
Import ListNotations.
Local Open Scope Z_scope.
Local Open Scope list_scope.

Definition zlen {A} (l : list A) : Z := Z.of_nat (List.length l).

(** [(&& (>= i 0) (< i (length l)))] *)
Definition in_range {A} (l : list A) (i : Z) : bool := (0 <=? i) && (i <? zlen l).

(** ** lists (utils.rkt:10-39) *)

(** utils.rkt:10-12 *)
Definition list_ref_noerr (l : list Z) (i : Z) : Z :=
  if in_range l i then nth (Z.to_nat i) l 0 else 0.
(** utils.rkt:14-16, 186-188, 232-234, 297-299 (the same function) *)
Definition list_tail_noerr {A} (l : list A) (i : Z) : list A :=
  if (0 <=? i) && (i <=? zlen l) then skipn (Z.to_nat i) l else [].
(** utils.rkt:18-19, 223-224, 317-318 *)
Definition rkt_append {A} (l : list A) (i : A) : list A := l ++ [i].
(** utils.rkt:24-25 *)
Definition rkt_prepend {A} (i : A) (l : list A) : list A := i :: l.
(** utils.rkt:27-28, 218-219, 301-302 *)
Definition list_take_noerr {A} (l : list A) (i : Z) : list A :=
  if i <=? 0 then [] else if (0 <=? i) && (i <? zlen l) then firstn (Z.to_nat i) l else l.
(** utils.rkt:30-32, 190-192, 304-306 *)
Definition vec_slice_noerr {A} (l : list A) (st en : Z) : list A :=
  list_tail_noerr (list_take_noerr l en) st.
(** utils.rkt:34-36, 194-196, 308-310 *)
Definition vec_slice_with_length_noerr {A} (l : list A) (st n : Z) : list A :=
  vec_slice_noerr l st (st + n).
(** utils.rkt:38-39 *)
Definition rkt_concat (l1 l2 : list Z) : list Z := l1 ++ l2.

(** ** matrices *)

(** utils.rkt:182-184, 229-231, 293-295: default is the empty list *)
Definition matrix_ref_noerr {A} (l : list (list A)) (i : Z) : list A :=
  if in_range l i then nth (Z.to_nat i) l [] else [].
(** utils.rkt:213-216 (and 312-315).  [i] is a list here, so the test [(list? i)]
    succeeds; for an empty row the result is [(append l i)], that is [l]. *)
Definition matrix_prepend {A} (i : list A) (l : list (list A)) : list (list A) :=
  if 0 <? zlen i then [i] ++ l else l.
(** utils.rkt:198-207; the recursion is on [(matrix-tail-noerr l 1)], the tail of
    a non-empty list, written as structural recursion. *)
Fixpoint matrix_col_slice_noerr (l : list (list Z)) (st en : Z) : list (list Z) :=
  match l with
  | [] => []
  | r :: l' => matrix_prepend (vec_slice_noerr r st en) (matrix_col_slice_noerr l' st en)
  end.
(** utils.rkt:209-211 *)
Definition matrix_col_slice_with_length_noerr (l : list (list Z)) (st n : Z) : list (list Z) :=
  matrix_col_slice_noerr l st (st + n).

(** bounded.rkt:4-11 [define-bounded]: the body runs only when the fuel parameter
    is positive, with the fuel decreased; otherwise an assertion fails ([None]). *)
(** utils.rkt:253-261 *)
Fixpoint firsts (fuel : nat) (m : list (list Z)) : option (list Z) :=
  match fuel with
  | O => None
  | S fuel' =>
      if zlen m <? 1 then Some []
      else match firsts fuel' (list_tail_noerr m 1) with
           | Some r => Some (rkt_prepend (list_ref_noerr (matrix_ref_noerr m 0) 0) r)
           | None => None
           end
  end.
(** utils.rkt:263-268 *)
Definition rests (m : list (list Z)) : list (list Z) :=
  if zlen m <? 1 then [] else matrix_col_slice_noerr m 1 (zlen (matrix_ref_noerr m 0)).
(** utils.rkt:270-275; inside the body both calls see the decreased fuel. *)
Fixpoint matrix_transpose_noerr (fuel : nat) (m : list (list Z)) : option (list (list Z)) :=
  match fuel with
  | O => None
  | S fuel' =>
      if zlen m <? 1 then Some []
      else match firsts fuel' m, matrix_transpose_noerr fuel' (rests m) with
           | Some f, Some r => Some (matrix_prepend f r)
           | _, _ => None
           end
  end.

(** ** integers *)

(** utils.rkt:245-247; Racket's [quotient] truncates *)
Definition quotient_noerr (x y : Z) : Z := Z.quot x (if y =? 0 then 1 else y).
(** Racket's [remainder] (ir.py:2043), an error when the divisor is 0 *)
Definition rkt_remainder (x y : Z) : option Z := if y =? 0 then None else Some (Z.rem x y).
(** utils.rkt:277 *)
Definition integer_sqrt_noerr (fuel : nat) (n : Z) : option Z :=
  match fuel with O => None | S _ => Some n end.
(** utils.rkt:279-285 *)
Fixpoint integer_exp_noerr (fuel : nat) (n : Z) : option Z :=
  match fuel with
  | O => None
  | S fuel' =>
      if n <=? 0 then Some 1
      else match integer_exp_noerr fuel' (n - 1) with
           | Some e => Some (Z.rem (3 * e) 64)
           | None => None
           end
  end.
(** bounded.rkt:4 *)
Definition default_fuel : nat := 64.

(** ** the table of names *)

Local Open Scope string_scope.

(** ir.py:376-454 [Expr.get_list_fn] on the argument types for which it does not
    raise ([list_concat] on lists of integers, [matrix_transpose] on matrices). *)
Definition list_fn_table : list (string * string) :=
  [("list_get", "list-ref-noerr"); ("matrix_get", "matrix-ref-noerr"); ("tensor3d_get", "tensor3d-ref-noerr");
   ("list_append", "list-append"); ("matrix_append", "matrix-append"); ("tensor3d_append", "tensor3d-append");
   ("list_empty", "list-empty"); ("matrix_empty", "matrix-empty"); ("tensor3d_empty", "tensor3d-empty");
   ("list_tail", "list-tail-noerr"); ("matrix_tail", "matrix-tail-noerr"); ("tensor3d_tail", "tensor3d-tail-noerr");
   ("list_length", "length"); ("matrix_length", "matrix-length"); ("tensor3d_length", "tensor3d-length");
   ("list_take", "list-take-noerr"); ("matrix_take", "matrix-take-noerr"); ("tensor3d_take", "tensor3d-take-noerr");
   ("vec_slice", "vec-slice-noerr"); ("matrix_row_slice", "matrix-row-slice-noerr");
   ("tensor3d_slice", "tensor3d-slice-noerr");
   ("vec_slice_with_length", "vec-slice-with-length-noerr");
   ("matrix_row_slice_with_length", "matrix-row-slice-with-length-noerr");
   ("tensor3d_slice_with_length", "tensor3d-slice-with-length-noerr");
   ("matrix_col_slice", "matrix-col-slice-noerr");
   ("matrix_col_slice_with_length", "matrix-col-slice-with-length-noerr");
   ("matrix_transpose", "matrix-transpose-noerr");
   ("list_prepend", "list-prepend"); ("matrix_prepend", "matrix-prepend"); ("tensor3d_prepend", "tensor3d-prepend");
   ("list_eq", "equal?"); ("list_concat", "list-concat")].

Definition get_list_fn (f : string) : option string :=
  match find (fun p => String.eqb f (fst p)) list_fn_table with
  | Some p => Some (snd p)
  | None => None
  end.

(** argument and result values *)
Inductive dval : Type :=
| DZ (z : Z) | DB (b : bool) | DL (l : list Z) | DM (m : list (list Z)) | DT (t : list (list (list Z))).

Fixpoint eqb_list {A} (eqb : A -> A -> bool) (l l' : list A) : bool :=
  match l, l' with
  | [], [] => true
  | a :: r, b :: r' => eqb a b && eqb_list eqb r r'
  | _, _ => false
  end.

(** application of a Racket function of utils.rkt; [None]: wrong arguments, no such
    function, or out of fuel *)
Definition rkt_apply (g : string) (args : list dval) : option dval :=
  match args with
  | [] =>
      if String.eqb g "list-empty" then Some (DL [])
      else if String.eqb g "matrix-empty" then Some (DM [])
      else if String.eqb g "tensor3d-empty" then Some (DT [])
      else None
  | [DL l] => if String.eqb g "length" then Some (DZ (zlen l)) else None
  | [DM m] =>
      if String.eqb g "matrix-length" then Some (DZ (zlen m))
      else if String.eqb g "matrix-transpose-noerr" then option_map DM (matrix_transpose_noerr default_fuel m)
      else None
  | [DT t] => if String.eqb g "tensor3d-length" then Some (DZ (zlen t)) else None
  | [DL l; DZ i] =>
      if String.eqb g "list-ref-noerr" then Some (DZ (list_ref_noerr l i))
      else if String.eqb g "list-append" then Some (DL (rkt_append l i))
      else if String.eqb g "list-tail-noerr" then Some (DL (list_tail_noerr l i))
      else if String.eqb g "list-take-noerr" then Some (DL (list_take_noerr l i))
      else None
  | [DM m; DZ i] =>
      if String.eqb g "matrix-ref-noerr" then Some (DL (matrix_ref_noerr m i))
      else if String.eqb g "matrix-tail-noerr" then Some (DM (list_tail_noerr m i))
      else if String.eqb g "matrix-take-noerr" then Some (DM (list_take_noerr m i))
      else None
  | [DT t; DZ i] =>
      if String.eqb g "tensor3d-ref-noerr" then Some (DM (matrix_ref_noerr t i))
      else if String.eqb g "tensor3d-tail-noerr" then Some (DT (list_tail_noerr t i))
      else if String.eqb g "tensor3d-take-noerr" then Some (DT (list_take_noerr t i))
      else None
  | [DM m; DL r] => if String.eqb g "matrix-append" then Some (DM (rkt_append m r)) else None
  | [DT t; DM r] => if String.eqb g "tensor3d-append" then Some (DT (rkt_append t r)) else None
  | [DZ i; DL l] => if String.eqb g "list-prepend" then Some (DL (rkt_prepend i l)) else None
  | [DL r; DM m] => if String.eqb g "matrix-prepend" then Some (DM (matrix_prepend r m)) else None
  | [DM r; DT m] => if String.eqb g "tensor3d-prepend" then Some (DT (matrix_prepend r m)) else None
  | [DL l; DL l'] =>
      if String.eqb g "list-concat" then Some (DL (rkt_concat l l'))
      else if String.eqb g "equal?" then Some (DB (eqb_list Z.eqb l l'))
      else None
  | [DM m; DM m'] => if String.eqb g "equal?" then Some (DB (eqb_list (eqb_list Z.eqb) m m')) else None
  | [DL l; DZ st; DZ en] =>
      if String.eqb g "vec-slice-noerr" then Some (DL (vec_slice_noerr l st en))
      else if String.eqb g "vec-slice-with-length-noerr" then Some (DL (vec_slice_with_length_noerr l st en))
      else None
  | [DM m; DZ st; DZ en] =>
      if String.eqb g "matrix-row-slice-noerr" then Some (DM (vec_slice_noerr m st en))
      else if String.eqb g "matrix-row-slice-with-length-noerr" then Some (DM (vec_slice_with_length_noerr m st en))
      else if String.eqb g "matrix-col-slice-noerr" then Some (DM (matrix_col_slice_noerr m st en))
      else if String.eqb g "matrix-col-slice-with-length-noerr"
      then Some (DM (matrix_col_slice_with_length_noerr m st en))
      else None
  | [DT t; DZ st; DZ en] =>
      if String.eqb g "tensor3d-slice-noerr" then Some (DT (vec_slice_noerr t st en))
      else if String.eqb g "tensor3d-slice-with-length-noerr" then Some (DT (vec_slice_with_length_noerr t st en))
      else None
  | _ => None
  end.

Local Open Scope Z_scope.

(** ** sets of integers (utils.rkt:51-100) *)

(** utils.rkt:51-55 *)
Definition set_singleton (v : Z) : list Z := [v].
Definition set_create : list Z := [].
(** utils.rkt:57-58 *)
Definition set_eq (s1 s2 : list Z) : bool := eqb_list Z.eqb s1 s2.
(** utils.rkt:60-70; the inner recursion is on [bs] *)
Fixpoint set_union (xs : list Z) : list Z -> list Z :=
  match xs with
  | [] => fun ys => ys
  | a :: xs' =>
      fix go (ys : list Z) : list Z :=
        match ys with
        | [] => a :: xs'
        | b :: ys' =>
            if a =? b then go ys'
            else if a <? b then a :: set_union xs' (b :: ys')
            else b :: go ys'
        end
  end.
(** utils.rkt:72-73 *)
Definition set_member (v : Z) (s : list Z) : bool := existsb (fun c => v =? c) s.
(** utils.rkt:75-76 *)
Definition set_insert (v : Z) (s : list Z) : list Z := set_union (set_singleton v) s.
(** utils.rkt:78-88 *)
Fixpoint set_subset (s1 s2 : list Z) : bool :=
  match s1, s2 with
  | [], _ => true
  | _, [] => false
  | a :: s1', b :: s2' =>
      if a =? b then set_subset s1' s2' else if a <? b then false else set_subset s1 s2'
  end.
(** utils.rkt:90-100 *)
Fixpoint set_minus (xs : list Z) : list Z -> list Z :=
  match xs with
  | [] => fun _ => []
  | a :: xs' =>
      fix go (ys : list Z) : list Z :=
        match ys with
        | [] => a :: xs'
        | b :: ys' =>
            if a =? b then set_minus xs' ys'
            else if a <? b then a :: set_minus xs' (b :: ys')
            else go ys'
        end
  end.

(** ** maps from integers to integers (utils.rkt:104-133)

    A map is a list of tuples [(list k v)]; a tuple is modelled as a pair.
    [(tupleGet (matrix-ref-noerr m 0) 0)] of a non-empty map is the first key. *)

(** utils.rkt:104-105 *)
Definition map_create : list (Z * Z) := [].
(** utils.rkt:117-119 *)
Fixpoint map_idx (m : list (Z * Z)) (k : Z) : nat :=
  match m with [] => O | (k', _) :: m' => if k' =? k then O else S (map_idx m' k) end.
(** utils.rkt:121-124: 0 or 1, not a boolean *)
Fixpoint map_contains (m : list (Z * Z)) (k : Z) : Z :=
  match m with [] => 0 | (k', _) :: m' => if k' =? k then 1 else map_contains m' k end.
(** Racket's [list-set] (in range) *)
Fixpoint list_set {A} (l : list A) (i : nat) (a : A) : list A :=
  match l, i with
  | [], _ => []
  | _ :: r, O => a :: r
  | x :: r, S i' => x :: list_set r i' a
  end.
(** utils.rkt:126-129 *)
Definition map_insert (m : list (Z * Z)) (k v : Z) : list (Z * Z) :=
  if map_contains m k =? 0 then m ++ [(k, v)] else list_set m (map_idx m k) (k, v).
(** utils.rkt:131-133 *)
Fixpoint map_get (m : list (Z * Z)) (k : Z) : Z :=
  match m with [] => 0 | (k', v) :: m' => if k' =? k then v else map_get m' k end.
(** utils.rkt:114-115 *)
Definition map_eq (m1 m2 : list (Z * Z)) : bool :=
  eqb_list (fun p q => (fst p =? fst q) && (snd p =? snd q)) m1 m2.
(** utils.rkt:107-112 [map-normalize]: calls the three-argument [map-insert] with
    four arguments, an arity error, on every non-empty list. *)
Definition map_normalize (m : list (Z * Z)) : option (list (Z * Z)) :=
  match m with [] => Some [] | _ :: _ => None end.
