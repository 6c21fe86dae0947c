(** The SMT-LIB prelude written before every verification query
    (smt_util.py:320-323): integer-fn-axioms.smt and list-axioms.smt.
    The sort [MLList T] (list-axioms.smt:2-3) is a datatype, so it is interpreted
    by [list T]; [Int] by [Z].  SMT-LIB's [div] and [mod] on integers are
    Euclidean (for a non-zero divisor). *)

From Coq Require Import ZArith List Bool.
Import ListNotations.
Local Open Scope Z_scope.

(** SMT-LIB theory of Ints: [m = n*q + r], [0 <= r < |n|]; for [n = 0] the
    result is unspecified, here it is an argument of the model. *)
Definition euclid_div (m n : Z) : Z := Z.sgn n * (m / Z.abs n).
Definition euclid_mod (m n : Z) : Z := m mod (Z.abs n).

(** Symbols declared once for [MLList Int] and once for
    [MLList (MLList Int)]: the selectors of list-axioms.smt:3 at that type (their
    value on [nil] is not specified by SMT-LIB), then [list_length] 11 /
    [matrix_length] 113, [list_append] 23 / [matrix_append] 126,
    [list_get_helper] 31 / [matrix_get_helper] 133, [list_tail] 43 /
    [matrix_tail] 146, [list_take] 58 / [matrix_take] 160. *)
Record lsyms (T : Type) : Type := {
  s_head : list T -> T;
  s_tail : list T -> list T;
  s_length : list T -> Z;
  s_append : list T -> T -> list T;
  s_get : list T -> Z -> T;
  s_ltail : list T -> Z -> list T;
  s_take : list T -> Z -> list T }.

Arguments s_head {T}. Arguments s_tail {T}. Arguments s_length {T}. Arguments s_append {T}.
Arguments s_get {T}. Arguments s_ltail {T}. Arguments s_take {T}.

(** The assertions about these symbols (list / matrix lines of list-axioms.smt). *)
Record lax {T : Type} (S : lsyms T) : Prop := {
  (* selectors: SMT-LIB semantics of line 3 *)
  ax_head : forall h t, s_head S (h :: t) = h;
  ax_tail : forall h t, s_tail S (h :: t) = t;
  (* 13 / 114 *)
  ax_length_nil : s_length S [] = 0;
  (* 14-15 / 115-116 *)
  ax_length_cons : forall v l, s_length S (v :: l) = 1 + s_length S l;
  (* 16-17 / 117-118 *)
  ax_length_nonneg : forall l, 0 <= s_length S l;
  (* 25-26 / 127-128 *)
  ax_append_nil : forall v, s_append S [] v = [v];
  (* 27-28 / 129-130 *)
  ax_append_cons : forall h t v, s_append S (h :: t) v = h :: s_append S t v;
  (* 34-37 / 135-138 *)
  ax_get : forall h t i,
    if i <=? 0 then s_get S (h :: t) i = h else s_get S (h :: t) i = s_get S t (i - 1);
  (* 43-44 / 146-147: define-fun-rec *)
  ax_ltail_def : forall l n, s_ltail S l n = if n <=? 0 then l else s_ltail S (s_tail S l) (n - 1);
  (* 47-50 / 148-151 *)
  ax_ltail_cons : forall st h t,
    if st <=? 0 then s_ltail S (h :: t) st = h :: t else s_ltail S (h :: t) st = s_ltail S t (st - 1);
  (* 51-52 / 152-153 *)
  ax_ltail_nil : forall st, s_ltail S [] st = [];
  (* 53-55 / 154-156 *)
  ax_ltail_long : forall st l, st >= s_length S l -> s_ltail S l st = [];
  (* 60-63 / 162-165 *)
  ax_take_cons : forall en h t,
    if en <=? 0 then s_take S (h :: t) en = [] else s_take S (h :: t) en = h :: s_take S t (en - 1);
  (* 64-65 / 166-167 *)
  ax_take_nil : forall en, s_take S [] en = [];
  (* 66-68 / 168-170 *)
  ax_take_long : forall en l, en >= s_length S l -> s_take S l en = l;
  (* 70 / 172 *)
  ax_take_0 : forall l, s_take S l 0 = [] }.

(** All symbols.  [list_concat] 78, [list_contains] 83, [matrix_col_slice] 189,
    [matrix_col_slice_with_length] 192, [firsts] 195, [rests] 198,
    [matrix_transpose] 201; integer-fn-axioms.smt: [integer_exp] 3,
    [integer_sqrt_helper] 6; [s_div0], [s_mod0]: SMT-LIB's unspecified results of
    division by zero. *)
Record smt : Type := {
  li : lsyms Z;
  lm : lsyms (list Z);
  s_concat : list Z -> list Z -> list Z;
  s_contains : list Z -> Z -> bool;
  s_col_slice : list (list Z) -> Z -> Z -> list (list Z);
  s_col_slice_len : list (list Z) -> Z -> Z -> list (list Z);
  s_firsts : list (list Z) -> list Z;
  s_rests : list (list Z) -> list (list Z);
  s_transpose : list (list Z) -> list (list Z);
  s_exp : Z -> Z;
  s_sqrt_helper : Z -> Z -> Z;
  s_div0 : Z -> Z;
  s_mod0 : Z -> Z }.

Section Defs.
  Variable I : smt.

  (** SMT-LIB [div], [mod] *)
  Definition smt_div (m n : Z) : Z := if n =? 0 then s_div0 I m else euclid_div m n.
  Definition smt_mod (m n : Z) : Z := if n =? 0 then s_mod0 I m else euclid_mod m n.

  (** The non-recursive [define-fun]s are abbreviations. *)
  (** list-axioms.smt:20, 122 *)
  Definition list_prepend {T} (v : T) (l : list T) : list T := v :: l.
  (** 32, 134 *)
  Definition list_get (l : list Z) (i : Z) : Z := s_get (li I) l i.
  Definition matrix_get (l : list (list Z)) (i : Z) : list Z := s_get (lm I) l i.
  (** 177-178 *)
  Definition vec_slice (l : list Z) (st en : Z) : list Z := s_ltail (li I) (s_take (li I) l en) st.
  (** 180-181 *)
  Definition vec_slice_with_length (l : list Z) (st n : Z) : list Z := vec_slice l st (st + n).
  (** 183-184 *)
  Definition matrix_row_slice (m : list (list Z)) (st en : Z) : list (list Z) :=
    s_ltail (lm I) (s_take (lm I) m en) st.
  (** 186-187 *)
  Definition matrix_row_slice_with_length (m : list (list Z)) (st n : Z) : list (list Z) :=
    matrix_row_slice m st (st + n).
  (** integer-fn-axioms.smt:9-10 *)
  Definition integer_sqrt (n : Z) : Z := s_sqrt_helper I (smt_div n 2) n.
End Defs.

(** Everything except the definition of [matrix_transpose]. *)
Record prelude_core (I : smt) : Prop := {
  core_li : lax (li I);
  core_lm : lax (lm I);
  (* list-axioms.smt:78-81 *)
  ax_concat : forall xs ys, s_concat I xs ys =
    match xs with [] => ys | _ => s_head (li I) xs :: s_concat I (s_tail (li I) xs) ys end;
  (* 83-88 *)
  ax_contains : forall l v, s_contains I l v =
    if s_length (li I) l =? 0 then false
    else if s_head (li I) l =? v then true else s_contains I (s_tail (li I) l) v;
  (* 93-94 *)
  ax_concat_nil : forall l, s_concat I l [] = l;
  (* 98-101 *)
  ax_tail_get : forall l i, i >= 0 /\ i < s_length (li I) l ->
    s_ltail (li I) l i = list_get I l i :: s_ltail (li I) l (i + 1);
  (* 104-106 *)
  ax_concat_append : forall xs y ys, s_concat I xs (y :: ys) = s_concat I (s_append (li I) xs y) ys;
  (* 189-190 *)
  ax_col_slice : forall m st en, s_col_slice I m st en =
    if s_length (lm I) m <? 1 then []
    else list_prepend (vec_slice I (matrix_get I m 0) st en) (s_col_slice I (s_ltail (lm I) m 1) st en);
  (* 192-193 *)
  ax_col_slice_len : forall m st n, s_col_slice_len I m st n = s_col_slice I m st (st + n);
  (* 195-196 *)
  ax_firsts : forall m, s_firsts I m =
    if s_length (lm I) m <? 1 then []
    else list_prepend (list_get I (matrix_get I m 0) 0) (s_firsts I (s_ltail (lm I) m 1));
  (* 198-199 *)
  ax_rests : forall m, s_rests I m =
    if s_length (lm I) m <? 1 then []
    else s_col_slice I m 1 (s_length (li I) (matrix_get I m 0));
  (* integer-fn-axioms.smt:3-4 *)
  ax_exp : forall n, s_exp I n = if n <=? 0 then 1 else smt_mod I (s_exp I (n - 1) * 3) 64;
  (* integer-fn-axioms.smt:6-7 *)
  ax_sqrt : forall n g, s_sqrt_helper I n g =
    if ((g =? 0) || (g =? 1)) || (g >? 64) then 1
    else if g =? smt_div I n g then g
    else s_sqrt_helper I n (smt_div I (g + smt_div I n g) 2) }.

(** list-axioms.smt:201-202 *)
Definition ax_transpose (I : smt) : Prop :=
  forall m, s_transpose I m =
    if s_length (lm I) m <? 1 then []
    else list_prepend (s_firsts I m) (s_transpose I (s_rests I m)).

(** the prelude of every verification query *)
Definition prelude (I : smt) : Prop := prelude_core I /\ ax_transpose I.
