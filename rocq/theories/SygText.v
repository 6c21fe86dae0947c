(** Terms in the output of a SyGuS solver: a specification, not a model of code in
    /repo.  Their value is [sval] of SmtText.v. *)

From Coq Require Import String Ascii List ZArith Bool.
From Verif Require Import Ast Semantics Dict SexpModel SexpProofs SmtText.
Import ListNotations.
Local Open Scope string_scope.
Local Open Scope list_scope.

Section Terms.
  Variable fn : string -> bool.        (* the names of functions *)

  (** operations on sets with two operands; their names in the IR *)
  Definition set_ops : list (string * string) :=
    [("set.insert", "set-insert"); ("set.union", "set-union"); ("set.minus", "set-minus"); ("set.subset", "set-subset"); ("set.member", "set-member")].

  (** terms with one binding in each [let], the number of operands of a tuple in its
      name, and two operands of operations on sets *)
  Fixpoint term (s : sexp) : bool :=
    match s with
    | SA _ => true
    | SL (SA h :: l) =>
        if String.eqb h "let" then
          match l with [SL [SL [SA x; a]]; b] => var_name x && negb (fn x) && term a && term b | _ => false end
        else if String.eqb h "as" then match l with [SA w; _] => String.eqb w "set.empty" | _ => false end
        else if pre "tuple" h then String.eqb h (tuple_name (List.length l)) && forallb term l
        else if String.eqb h "set.singleton" then match l with [a] => term a | _ => false end
        else if pre "set." h then match l with [a; b] => term a && term b | _ => false end
        else forallb term l
    | SL _ => false
    end.

  (** the functions of SMT-LIB do what those of the IR do *)
  Record same_functions (I : interp) (J : string -> list val -> option val) : Prop := {
    sf_fun : forall f vs, fn f = true -> symbol f = true -> J f vs = i_call I f vs;
    sf_var : forall x vs, fn x = false -> var_name x = true -> J x vs = None;
    sf_set : forall f g vs, In (f, g) (("set.singleton", "set-singleton") :: set_ops) -> J f vs = i_call I g vs;
    sf_empty : J "set.empty" [] = i_call I "set-create" [];
    sf_eq : forall a b, J "set.eq" [a; b] = Some (VBool (val_eqb a b));
    sf_tuple : forall n vs, J (tuple_name n) vs = i_call I (tuple_name n) vs }.
End Terms.

(** functions and variables have names of their own *)
Definition fun_names (fn : string -> bool) (F : dict ty) : Prop := forall f t, dget F f = Some t -> fn f = true /\ symbol f = true.
Definition var_names (fn : string -> bool) (V : dict ty) : Prop := forall x t, dget V x = Some t -> fn x = false /\ var_name x = true.

(** ** well-sorted terms of integers, truth values, sets and function calls, with the
    operators applied to two operands *)
Inductive sorted (F : dict ty) : dict ty -> sexp -> ty -> Prop :=
| so_num V w z : numeral w = Some z -> sorted F V (SA w) TInt
| so_const V w : In w ["true"; "false"] -> sorted F V (SA w) TBool
| so_var V x t : symbol x = true -> dget V x = Some t -> sorted F V (SA x) t
| so_arith V f a b : In f ["+"; "-"; "*"] -> sorted F V a TInt -> sorted F V b TInt -> sorted F V (SL [SA f; a; b]) TInt
| so_neg V a : sorted F V a TInt -> sorted F V (SL [SA "-"; a]) TInt
| so_cmp V f a b : In f ["<"; "<="; ">"; ">="] -> sorted F V a TInt -> sorted F V b TInt -> sorted F V (SL [SA f; a; b]) TBool
| so_eq V a b t : sorted F V a t -> sorted F V b t -> sorted F V (SL [SA "="; a; b]) TBool
| so_bool V f a b : In f ["and"; "or"; "=>"] -> sorted F V a TBool -> sorted F V b TBool -> sorted F V (SL [SA f; a; b]) TBool
| so_not V a : sorted F V a TBool -> sorted F V (SL [SA "not"; a]) TBool
| so_ite V c a b t : sorted F V c TBool -> sorted F V a t -> sorted F V b t -> sorted F V (SL [SA "ite"; c; a; b]) t
| so_let V x a b t t' : symbol x = true -> sorted F V a t -> sorted F (dset V x t) b t' -> sorted F V (SL [SA "let"; SL [SL [SA x; a]]; b]) t'
| so_call V f l r ts : symbol f = true -> dget F f = Some (TFn (r :: ts)) -> sorted_list F V l ts -> sorted F V (SL (SA f :: l)) r
| so_empty V o : sorted F V (SL [SA "as"; SA "set.empty"; o]) (TSet TInt)
| so_singleton V a t : sorted F V a t -> sorted F V (SL [SA "set.singleton"; a]) (TSet t)
| so_insert V a b t : sorted F V a t -> sorted F V b (TSet t) -> sorted F V (SL [SA "set.insert"; a; b]) (TSet t)
| so_set2 V f a b t : In f ["set.union"; "set.minus"] -> sorted F V a (TSet t) -> sorted F V b (TSet t) -> sorted F V (SL [SA f; a; b]) (TSet t)
| so_subset V a b t : sorted F V a (TSet t) -> sorted F V b (TSet t) -> sorted F V (SL [SA "set.subset"; a; b]) TBool
| so_member V a b t : sorted F V a t -> sorted F V b (TSet t) -> sorted F V (SL [SA "set.member"; a; b]) TBool
with sorted_list (F : dict ty) : dict ty -> list sexp -> list ty -> Prop :=
| so_nil V : sorted_list F V [] []
| so_cons V s l t ts : sorted F V s t -> sorted_list F V l ts -> sorted_list F V (s :: l) (t :: ts).
Scheme sorted_mut := Minimality for sorted Sort Prop with sorted_list_mut := Minimality for sorted_list Sort Prop.
