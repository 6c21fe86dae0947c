(** What SMT-LIB text should say: a specification, not a model of code in /repo.
    [tree] is the s-expression an expression of metalift/ir.py stands for, [shape] its
    structure without types, [sval] the value SMT-LIB gives to an s-expression. *)

From Coq Require Import DecimalString.
From Coq Require Import String Ascii List ZArith Bool.
From Verif Require Import Ast Semantics Dict SexpModel SexpProofs.
Import ListNotations.
Local Open Scope string_scope.
Local Open Scope list_scope.

(** ** names *)

Definition ops : list (kind * string) :=
  [ (KAdd, "+"); (KSub, "-"); (KMul, "*"); (KDiv, "div"); (KMod, "mod"); (KEq, "="); (KLt, "<"); (KLe, "<=");
    (KGt, ">"); (KGe, ">="); (KAnd, "and"); (KOr, "or"); (KNot, "not"); (KImplies, "=>"); (KIte, "ite");
    (KAssert, "assert"); (KConstraint, "constraint") ].
(** the symbol of an operator *)
Fixpoint find_op (k : kind) (l : list (kind * string)) : option string :=
  match l with [] => None | (k', s) :: r => if kind_eqb k k' then Some s else find_op k r end.
Fixpoint find_kind (s : string) (l : list (kind * string)) : option kind :=
  match l with [] => None | (k, s') :: r => if String.eqb s s' then Some k else find_kind s r end.
Definition op_sym (k : kind) : option string := find_op k ops.
Definition op_kind (s : string) : option kind := find_kind s ops.

Definition is_digit (c : ascii) : bool := (Nat.leb 48 (nat_of_ascii c) && Nat.leb (nat_of_ascii c) 57)%bool.
Definition pre (p s : string) : bool := String.prefix p s.
Fixpoint skip (n : nat) (s : string) : string := match n, s with S n, String _ r => skip n r | _, _ => s end.

(** a name that is not taken by SMT-LIB or by the names the printer makes up *)
Definition symbol (x : string) : bool :=
  word x
  && negb (match x with String c _ => is_digit c || Ascii.eqb c "-" | _ => false end)
  && negb (smem x ["true"; "false"; "let"; "as"])
  && match op_kind x with None => true | Some _ => false end
  && negb (pre "set." x || pre "map_" x || pre "tuple" x).
(** the names for operations on lists, sets, maps and tuples that are printed in another way *)
Definition renamed (x : string) : bool := pre "set-" x || pre "map-" x || smem x ["make-tuple"; "tupleGet"; "list_eq"].
Definition var_name (x : string) : bool := symbol x && negb (renamed x).

(** SMT-LIB's name of a function *)
Definition smt_name (f : string) : string :=
  if pre "set-" f then ("set." ++ skip 4 f)%string
  else if pre "map-" f then ("map_" ++ skip 4 f)%string
  else f.
Definition tuple_name (n : nat) : string := ("tuple" ++ string_of_nat n)%string.
Definition get_name (n : nat) (i : Z) : string := ("tuple" ++ string_of_nat n ++ "_get" ++ string_of_Z i)%string.

(** the number of components of an expression that is a tuple *)
Definition tuple_size (e : expr) : option nat :=
  match e with
  | Node KTupleExpr _ l => Some (List.length l)
  | Node (KCall | KTargetCall) _ (Atom (PStr f) :: l) => if String.eqb f "make-tuple" then Some (List.length l) else None
  | Node (KVar | KNonTerm) (TTuple ts) _ => Some (List.length ts)
  | _ => None
  end.

(** the sort of values of a type; none for functions *)
Fixpoint sort_tree (t : ty) : option sexp :=
  match t with
  | TInt => Some (SA "Int") | TBool => Some (SA "Bool")
  | TList e | TTensor3D e => option_map (fun s => SL [SA "MLList"; s]) (sort_tree e)
  | TMatrix e => option_map (fun s => SL [SA "MLList"; SL [SA "MLList"; s]]) (sort_tree e)
  | TSet e => option_map (fun s => SL [SA "Set"; s]) (sort_tree e)
  | TTuple ts => option_map (fun l => SL (SA ("Tuple" ++ string_of_nat (List.length ts))%string :: l)) (mapO sort_tree ts)
  | TFn _ => None
  end.

(** ** the expressions covered; [fn] tells the names of functions from the names of variables *)
Section Plain.
  Variable fn : string -> bool.

  Definition is_var (e : expr) : bool :=
    match e with Node (KVar | KNonTerm) _ [Atom (PStr x)] => var_name x && negb (fn x) | _ => false end.

  (** calls of the function [f] with the arguments [l] and the type [t] *)
  Definition call_ok (f : string) (t : ty) (l : list expr) : bool :=
    if String.eqb f "set-create" then match l, sort_tree t with [], Some _ => true | _, _ => false end
    else if String.eqb f "make-tuple" || String.eqb f "list_eq" then match l with [] => false | _ => true end
    else if String.eqb f "tupleGet" then
      match l with [e; Node KLit TInt [Atom (PInt _)]] => match tuple_size e with Some _ => true | None => false end | _ => false end
    else if pre "set-" f || pre "map-" f then word f
    else symbol f.

  Fixpoint plain (e : expr) : bool :=
    match e with
    | Atom _ => false
    | Node k t args =>
        match op_sym k with
        | Some _ => forallb plain args
        | None =>
            match k with
            | KVar | KNonTerm => is_var e
            | KLit => match args with [Atom a] => match lit_val t a with Some _ => true | None => false end | _ => false end
            | KLet => match args with [v; a; b] => is_var v && plain a && plain b | _ => false end
            | KCall | KTargetCall =>
                match args with Atom (PStr f) :: l => fn f && call_ok f t l && forallb plain l | _ => false end
            | KCallValue => match args with v :: l => is_var v && forallb plain l | _ => false end
            | KTupleExpr => forallb plain args
            | _ => false
            end
        end
    end.
End Plain.

(** ** the tree *)

Definition lit_word (t : ty) (a : patom) : string :=
  match lit_val t a with
  | Some (VInt z) => string_of_Z z
  | Some (VBool b) => if b then "true" else "false"
  | _ => ""
  end.
Definition name_of (e : expr) : string := match e with Node _ _ (Atom (PStr x) :: _) => x | _ => "" end.

Fixpoint tree (e : expr) : sexp :=
  match e with
  | Atom _ => SL []
  | Node k t args =>
      match op_sym k with
      | Some o => SL (SA o :: map tree args)
      | None =>
          match k with
          | KVar | KNonTerm => SA (name_of e)
          | KLit => match args with Atom a :: _ => SA (lit_word t a) | _ => SL [] end
          | KLet => match args with [v; a; b] => SL [SA "let"; SL [SL [SA (name_of v); tree a]]; tree b] | _ => SL [] end
          | KCall | KTargetCall =>
              match args with
              | Atom (PStr f) :: l =>
                  if String.eqb f "set-create" then SL [SA "as"; SA "set.empty"; match sort_tree t with Some s => s | None => SL [] end]
                  else if String.eqb f "make-tuple" then SL (SA (tuple_name (List.length l)) :: map tree l)
                  else if String.eqb f "list_eq" then SL (SA "=" :: map tree l)
                  else if String.eqb f "tupleGet" then
                    match l with
                    | [e; Node _ _ [Atom (PInt i)]] =>
                        SL [SA (get_name (match tuple_size e with Some n => n | None => 0 end) i); tree e]
                    | _ => SL []
                    end
                  else match l with [] => SA (smt_name f) | _ => SL (SA (smt_name f) :: map tree l) end
              | _ => SL []
              end
          | KCallValue => match args with v :: l => SL (SA (name_of v) :: map tree l) | _ => SL [] end
          | KTupleExpr => SL (SA (tuple_name (List.length args)) :: map tree args)
          | _ => SL []
          end
      end
  end.

(** ** the structure of an expression without its types *)
Inductive shape : Type :=
| ShVar (x : string)
| ShLit (v : option val)
| ShOp (k : kind) (l : list shape)             (* an operator; [list_eq] is equality *)
| ShLet (x : string) (a b : shape)
| ShCall (f : string) (l : list shape)         (* a function, by its name *)
| ShApply (x : string) (l : list shape)        (* a variable that holds a function *)
| ShTuple (l : list shape)                     (* both ways of making a tuple *)
| ShGet (n : nat) (i : Z) (t : shape).         (* component [i] of [n] *)

Fixpoint shape_of (e : expr) : shape :=
  match e with
  | Atom _ => ShLit None
  | Node k t args =>
      match op_sym k with
      | Some _ => ShOp k (map shape_of args)
      | None =>
          match k with
          | KVar | KNonTerm => ShVar (name_of e)
          | KLit => match args with Atom a :: _ => ShLit (lit_val t a) | _ => ShLit None end
          | KLet => match args with [v; a; b] => ShLet (name_of v) (shape_of a) (shape_of b) | _ => ShLit None end
          | KCall | KTargetCall =>
              match args with
              | Atom (PStr f) :: l =>
                  if String.eqb f "make-tuple" then ShTuple (map shape_of l)
                  else if String.eqb f "list_eq" then ShOp KEq (map shape_of l)
                  else if String.eqb f "tupleGet" then
                    match l with
                    | [e; Node _ _ [Atom (PInt i)]] => ShGet (match tuple_size e with Some n => n | None => 0 end) i (shape_of e)
                    | _ => ShLit None
                    end
                  else ShCall f (map shape_of l)
              | _ => ShLit None
              end
          | KCallValue => match args with v :: l => ShApply (name_of v) (map shape_of l) | _ => ShLit None end
          | KTupleExpr => ShTuple (map shape_of args)
          | _ => ShLit None
          end
      end
  end.

(** ** the value of a term of SMT-LIB *)

(** a numeral: digits only *)
Definition numeral (w : string) : option Z :=
  match w with EmptyString => None | _ => option_map Z.of_uint (NilEmpty.uint_of_string w) end.

(** Numerals, [true], [false], variables; [let] with any number of bindings, all seen
    from outside; the operators of the theories of integers and Booleans with at least
    two operands where SMT-LIB asks for it; calls of other functions by [J]. *)
Definition op_apply (I : interp) (k : kind) (vs : list val) : option val :=
  match k, vs with
  | (KAdd | KMul | KAnd | KOr), [_] => None
  | KSub, [VInt a] => Some (VInt (- a))
  | (KAssert | KConstraint), _ => None
  | _, _ => op_val I k vs
  end.
(** the variables of [l] have the values given there, the others those of [r] *)
Definition bind (l : list (string * val)) (r : env) : env := fold_right (fun p r => upd r (fst p) (snd p)) r l.
Section Sval.
  Variable I : interp.                               (* division and modulo *)
  Variable J : string -> list val -> option val.     (* the functions that are declared or defined *)
  Fixpoint sval (r : env) (s : sexp) {struct s} : option val :=
    match s with
    | SA w =>
        match numeral w with
        | Some z => Some (VInt z)
        | None => if String.eqb w "true" then Some (VBool true) else if String.eqb w "false" then Some (VBool false)
                  else match r w with Some v => Some v | None => J w [] end
        end
    | SL (SA f :: l) =>
        if String.eqb f "let" then
          match l with
          | [SL bs; b] =>
              match (fix go (bs : list sexp) : option (list (string * val)) :=
                       match bs with
                       | [] => Some []
                       | SL [SA x; a] :: bs => match sval r a, go bs with Some v, Some l => Some ((x, v) :: l) | _, _ => None end
                       | _ => None
                       end) bs with
              | Some l => sval (bind l r) b
              | None => None
              end
          | _ => None
          end
        else if String.eqb f "as" then match l with [SA c; _] => J c [] | _ => None end
        else if String.eqb f "ite" then
          match l with
          | [c; a; b] =>
              match sval r c with
              | Some (VBool true) => sval r a
              | Some (VBool false) => sval r b
              | _ => None
              end
          | _ => None
          end
        else
          match mapO (sval r) l with
          | Some vs => match op_kind f with
                       | Some k => op_apply I k vs
                       | None => match r f with Some (VFn g) => i_call I g vs | Some _ => None | None => J f vs end
                       end
          | None => None
          end
    | SL _ => None
    end.
End Sval.

(** ** what has to hold for the text to be well-formed SMT-LIB *)
(** no negative number, no operator with too few operands *)
Fixpoint smt_ok (e : expr) : bool :=
  match e with
  | Atom _ => true
  | Node k t args =>
      match k with
      | KLit => match args with [Atom (PInt z)] => Z.leb 0 z || ty_eqb t TBool | _ => true end
      | KAdd | KMul | KAnd | KOr => Nat.leb 2 (List.length args)
      | KSub => Nat.eqb 2 (List.length args)
      | KLet => match args with Node KVar _ _ :: _ => true | _ => false end   (* no grammar symbol *)
      | _ => true
      end && forallb smt_ok args
  end.

(** the functions of SMT-LIB do what those of the IR do *)
Record agree (fn : string -> bool) (I : interp) (J : string -> list val -> option val) : Prop := {
  ag_fun : forall f vs, fn f = true -> J (smt_name f) vs = i_call I f vs;
  ag_var : forall x vs, fn x = false -> var_name x = true -> J x vs = None;
  ag_empty : J "set.empty" [] = i_call I "set-create" [];
  ag_list_eq : forall vs, i_call I "list_eq" vs = op_val I KEq vs;
  ag_make : forall vs, i_call I "make-tuple" vs = Some (VTuple vs);
  ag_tuple : forall vs, J (tuple_name (List.length vs)) vs = Some (VTuple vs);
  ag_get : forall n i v, J (get_name n i) [v] = i_call I "tupleGet" [v; VInt i] }.
