(** Expression trees of metalift's IR (metalift/ir.py), the exceptions its
    constructors raise, structural equality and [map_args].

    Every definition cites the lines of /repo it models. *)

From Coq Require Import String List ZArith Bool Lia.
Import ListNotations.
Local Open Scope string_scope.
Local Open Scope Z_scope.
Set Implicit Arguments.

(** ir.py:841-1850: the IR object types [Bool], [Int], [List], [Matrix],
    [Tensor3D], [Set], [Tuple], [Fn].  Python's [Fn[tuple[ret, a1, ..]]]
    becomes [TFn [ret; a1; ..]]. *)
Inductive ty : Type :=
| TInt | TBool
| TList (t : ty) | TMatrix (t : ty) | TTensor3D (t : ty) | TSet (t : ty)
| TTuple (ts : list ty) | TFn (ts : list ty).

(** ir.py:1895-1897 (literal values), 1852-1854 (names), 3011-3019 (a body may
    be [None]): the non-[Expr] Python objects that occur in [Expr.args].
    Simplification: llvmlite [ValueRef]s, floats etc. are left out. *)
Inductive patom : Type :=
| PStr (s : string) | PInt (z : Z) | PBool (b : bool) | PNone.

(** ir.py:1852-3312: the concrete subclasses of [Expr].  [Lambda] (3118) and
    [TupleGet] (2779) are left out: their constructors refer to [FnT], which is
    not defined, and to [t.type.args], which no type has, so no object of these
    classes can be built. [NonTerm] is a subclass of [Var], [TargetCall] of
    [Call], [Target] of [FnDecl]. *)
Inductive kind : Type :=
| KVar | KNonTerm | KLit
| KAdd | KSub | KMul | KDiv | KMod
| KEq | KLt | KLe | KGt | KGe
| KAnd | KOr | KNot | KImplies | KIte | KLet
| KCall | KTargetCall | KCallValue
| KAssert | KConstraint | KTupleExpr | KAxiom | KSynth | KChoose
| KFnDeclRec | KFnDecl | KTarget.

(** ir.py:106-110: an [Expr] has a class, a [type] and [args]; elements of
    [args] are [Expr]s or plain Python objects ([Atom]).  Simplification:
    [metadata] and the codegen callables of [TargetCall]/[Target] are dropped. *)
Inductive expr : Type :=
| Atom (a : patom)
| Node (k : kind) (t : ty) (args : list expr).

(** Exceptions raised by the modelled code. *)
Inductive exn : Type :=
| ExArity        (* wrong number of arguments *)
| ExTypes        (* a constructor's type check failed *)
| ExAttr         (* AttributeError: e.g. [.type] of a plain string *)
| ExKey          (* KeyError *)
| ExIndex        (* IndexError *)
| ExNYI          (* "NYI" / "Unsupported" exceptions *)
| ExValue
| ExFuel.        (* not a Python exception: the model ran out of its recursion bound *)

Inductive res (A : Type) : Type := Ok (a : A) | Err (x : exn).
Arguments Ok {A} a.
Arguments Err {A} x.

Definition bindR {A B} (m : res A) (f : A -> res B) : res B :=
  match m with Ok a => f a | Err x => Err x end.
Notation "x <- m ;; k" := (bindR m (fun x => k))
  (at level 90, m at next level, right associativity).

Section MapR.
  Variables (A B : Type) (f : A -> res B).
  (** Evaluation of the Python list comprehension [[f(a) for a in l]], left to
      right, stopping at the first exception. *)
  Fixpoint mapR (l : list A) : res (list B) :=
    match l with
    | [] => Ok []
    | a :: r => b <- f a ;; bs <- mapR r ;; Ok (b :: bs)
    end.
End MapR.

(* ------------------------------------------------------------------ *)
(** Induction principles for the nested types. *)

Section ExprInd.
  Variable P : expr -> Prop.
  Hypothesis HAtom : forall a, P (Atom a).
  Hypothesis HNode : forall k t args, Forall P args -> P (Node k t args).
  Fixpoint expr_ind' (e : expr) : P e :=
    match e with
    | Atom a => HAtom a
    | Node k t args =>
        HNode k t
          ((fix go (l : list expr) : Forall P l :=
              match l with
              | [] => Forall_nil P
              | x :: r => Forall_cons x (expr_ind' x) (go r)
              end) args)
    end.
End ExprInd.

Section TyInd.
  Variable P : ty -> Prop.
  Hypothesis H1 : P TInt.
  Hypothesis H2 : P TBool.
  Hypothesis H3 : forall t, P t -> P (TList t).
  Hypothesis H4 : forall t, P t -> P (TMatrix t).
  Hypothesis H5 : forall t, P t -> P (TTensor3D t).
  Hypothesis H6 : forall t, P t -> P (TSet t).
  Hypothesis H7 : forall ts, Forall P ts -> P (TTuple ts).
  Hypothesis H8 : forall ts, Forall P ts -> P (TFn ts).
  Fixpoint ty_ind' (t : ty) : P t :=
    let go := fix go (l : list ty) : Forall P l :=
              match l with
              | [] => Forall_nil P
              | x :: r => Forall_cons x (ty_ind' x) (go r)
              end in
    match t with
    | TInt => H1 | TBool => H2
    | TList t => H3 (ty_ind' t) | TMatrix t => H4 (ty_ind' t)
    | TTensor3D t => H5 (ty_ind' t) | TSet t => H6 (ty_ind' t)
    | TTuple ts => H7 (go ts) | TFn ts => H8 (go ts)
    end.
End TyInd.

(* ------------------------------------------------------------------ *)
(** Decidable equalities. *)

Section ListEqb.
  Variables (A : Type) (eqb : A -> A -> bool).
  (** Element-wise comparison of two lists of the same length, as the loop
      [for a1, a2 in zip(..)] after the length check, ir.py:311-322. *)
  Fixpoint list_eqb (l1 l2 : list A) : bool :=
    match l1, l2 with
    | [], [] => true
    | a :: r1, b :: r2 => eqb a b && list_eqb r1 r2
    | _, _ => false
    end.
End ListEqb.

(** Python's [==] on IR types (classes and generic aliases), used as
    [arg.type != args[0].type] e.g. ir.py:1938.  Simplification: the
    constructors that compare [get_type_str] instead (e.g. 1964) are modelled
    with the same comparison. *)
Fixpoint ty_eqb (a b : ty) : bool :=
  match a, b with
  | TInt, TInt | TBool, TBool => true
  | TList x, TList y | TMatrix x, TMatrix y
  | TTensor3D x, TTensor3D y | TSet x, TSet y => ty_eqb x y
  | TTuple xs, TTuple ys | TFn xs, TFn ys => list_eqb ty_eqb xs ys
  | _, _ => false
  end.

Definition kind_eqb (a b : kind) : bool :=
  match a, b with
  | KVar, KVar | KNonTerm, KNonTerm | KLit, KLit
  | KAdd, KAdd | KSub, KSub | KMul, KMul | KDiv, KDiv | KMod, KMod
  | KEq, KEq | KLt, KLt | KLe, KLe | KGt, KGt | KGe, KGe
  | KAnd, KAnd | KOr, KOr | KNot, KNot | KImplies, KImplies | KIte, KIte
  | KLet, KLet | KCall, KCall | KTargetCall, KTargetCall
  | KCallValue, KCallValue | KAssert, KAssert | KConstraint, KConstraint
  | KTupleExpr, KTupleExpr | KAxiom, KAxiom | KSynth, KSynth
  | KChoose, KChoose | KFnDeclRec, KFnDeclRec | KFnDecl, KFnDecl
  | KTarget, KTarget => true
  | _, _ => false
  end.

Definition b2z (b : bool) : Z := if b then 1 else 0.

(** Python's [==] on plain objects (used as [a1 != a2], ir.py:320).  Python
    booleans are integers: [1 == True] and [0 == False]. *)
Definition atom_eqb (a b : patom) : bool :=
  match a, b with
  | PStr s, PStr s' => String.eqb s s'
  | PInt x, PInt y => Z.eqb x y
  | PBool x, PBool y => Bool.eqb x y
  | PInt x, PBool y => Z.eqb x (b2z y)
  | PBool x, PInt y => Z.eqb (b2z x) y
  | PNone, PNone => true
  | _, _ => false
  end.

(** ir.py:303-323 [Expr.__eq__]: same class, same number of arguments,
    pairwise equal arguments; [type] is not looked at.  An [Expr] and a plain
    object are never equal (the comparison falls back to identity). *)
Fixpoint expr_eqb (e1 e2 : expr) : bool :=
  match e1, e2 with
  | Atom a, Atom b => atom_eqb a b
  | Node k1 _ args1, Node k2 _ args2 =>
      kind_eqb k1 k2 && list_eqb expr_eqb args1 args2
  | _, _ => false
  end.

(** ir.py:331-332 [Expr.__hash__]: [hash(tuple(sorted({"type":.., "args":..})))].
    Iterating a dict yields its keys, so what is hashed is the tuple
    [("args", "type")] for every expression. The hash of a tuple of strings is
    represented by the tuple itself. *)
Definition expr_hash (e : expr) : list string := ["args"; "type"].

(* ------------------------------------------------------------------ *)
(** Constructors. *)

(** The [.type] attribute of a constructor argument; plain objects have none. *)
Definition type_of (e : expr) : res ty :=
  match e with Node _ t _ => Ok t | Atom _ => Err ExAttr end.

(** [isinstance(x, Expr)] *)
Definition is_expr (e : expr) : bool :=
  match e with Node _ _ _ => true | Atom _ => false end.

(** ir.py:1853 *)
Definition mkVar (x : string) (t : ty) : expr := Node KVar t [Atom (PStr x)].
(** ir.py:1884-1889 (with an explicit name) *)
Definition mkNonTerm (x : string) (t : ty) : expr := Node KNonTerm t [Atom (PStr x)].
(** ir.py:1896 *)
Definition mkLit (a : patom) (t : ty) : expr := Node KLit t [Atom a].
(** ir.py:1923-1928 *)
Definition IntLit (z : Z) : expr := mkLit (PInt z) TInt.
Definition BoolLit (b : bool) : expr := mkLit (PBool b) TBool.

(** [for arg in args: if arg.type != t: raise], ir.py:1937-1939 *)
Fixpoint check_types (t : ty) (args : list expr) : res unit :=
  match args with
  | [] => Ok tt
  | a :: r => ta <- type_of a ;;
              if ty_eqb ta t then check_types t r else Err ExTypes
  end.

(** ir.py:1934-1940 [Add.__init__], 1988-1996 [Mul.__init__]: at least one
    argument, all of the first one's type; the result type is always [Int]. *)
Definition mkArithN (k : kind) (args : list expr) : res expr :=
  match args with
  | [] => Err ExArity
  | a :: _ => t <- type_of a ;; _ <- check_types t args ;; Ok (Node k TInt args)
  end.
(** ir.py:1960-1968, 2017-2025, 2046-2054: [Sub], [Div], [Mod]: exactly two. *)
Definition mkArith2 (k : kind) (args : list expr) : res expr :=
  match args with
  | [a; b] => t <- type_of a ;; _ <- check_types t args ;; Ok (Node k TInt args)
  | _ => Err ExArity
  end.
(** ir.py:2075-2080 [Eq.__init__]: no type check. *)
Definition mkEq (args : list expr) : res expr :=
  match args with [a; b] => Ok (Node KEq TBool args) | _ => Err ExArity end.
(** ir.py:2111-2116 ([Lt]; same in [Le] 2142, [Gt] 2173, [Ge] 2204). *)
Definition mkCmp (k : kind) (args : list expr) : res expr :=
  match args with
  | [a; b] => ta <- type_of a ;; tb <- type_of b ;;
              if ty_eqb ta tb then Ok (Node k TBool args) else Err ExTypes
  | _ => Err ExArity
  end.
(** ir.py:2236-2242 [And], 2263-2270 [Or]: at least one argument, all [Bool]. *)
Definition mkBoolN (k : kind) (args : list expr) : res expr :=
  match args with
  | [] => Err ExArity
  | _ => _ <- check_types TBool args ;; Ok (Node k TBool args)
  end.
(** ir.py:2291-2294 [Not] *)
Definition mkNot (args : list expr) : res expr :=
  match args with
  | [a] => _ <- check_types TBool args ;; Ok (Node KNot TBool args)
  | _ => Err ExArity
  end.
(** ir.py:2314-2319 [Implies] *)
Definition mkImplies (args : list expr) : res expr :=
  match args with
  | [a; b] => _ <- check_types TBool args ;; Ok (Node KImplies TBool args)
  | _ => Err ExArity
  end.
(** ir.py:2337-2346 [Ite] *)
Definition mkIte (args : list expr) : res expr :=
  match args with
  | [c; a; b] =>
      tc <- type_of c ;;
      if negb (ty_eqb tc TBool) then Err ExTypes else
      ta <- type_of a ;; tb <- type_of b ;;
      if ty_eqb ta tb then Ok (Node KIte ta args) else Err ExTypes
  | _ => Err ExArity
  end.
(** ir.py:2370-2371 [Let] *)
Definition mkLet (args : list expr) : res expr :=
  match args with
  | [v; e; e2] => t <- type_of e2 ;; Ok (Node KLet t args)
  | _ => Err ExArity
  end.
(** ir.py:2407-2408 [Call]: [args = [name, *arguments]]. *)
Definition mkCall (f : expr) (t : ty) (args : list expr) : res expr :=
  Ok (Node KCall t (f :: args)).
(** ir.py:3263-3274 [TargetCall] *)
Definition mkTargetCall (f : expr) (t : ty) (args : list expr) : res expr :=
  Ok (Node KTargetCall t (f :: args)).
(** ir.py:2590-2593 [CallValue]: the result type is the return type of the
    called value's [Fn] type. *)
Definition mkCallValue (args : list expr) : res expr :=
  match args with
  | f :: _ => tf <- type_of f ;;
              match tf with
              | TFn (r :: _) => Ok (Node KCallValue r args)
              | TFn [] => Err ExIndex
              | _ => Err ExAttr
              end
  | [] => Err ExArity
  end.
(** ir.py:2708-2709 [Assert], 2732-2733 [Constraint] *)
Definition mkUnary (k : kind) (args : list expr) : res expr :=
  match args with [a] => Ok (Node k TBool args) | _ => Err ExArity end.
(** ir.py:2752-2754 [TupleExpr] *)
Definition mkTupleExpr (args : list expr) : res expr :=
  ts <- mapR type_of args ;; Ok (Node KTupleExpr (TTuple ts) args).
(** ir.py:2813-2814 [Axiom]: [args = [e, *vars]]. *)
Definition mkAxiom (args : list expr) : res expr :=
  match args with _ :: _ => Ok (Node KAxiom TBool args) | [] => Err ExArity end.
(** ir.py:2839-2840 [Synth]: [args = [name, body, *args]]. *)
Definition mkSynth (n : expr) (args : list expr) : res expr :=
  match args with
  | b :: _ => t <- type_of b ;; Ok (Node KSynth t (n :: args))
  | [] => Err ExArity
  end.
(** ir.py:2964-2970 [Choose] *)
Definition mkChoose (args : list expr) : res expr :=
  match args with
  | a :: _ => t <- type_of a ;; _ <- check_types t args ;; Ok (Node KChoose t args)
  | [] => Err ExIndex
  end.
(** ir.py:3012-3019 [FnDeclRecursive], 3154-3161 [FnDecl], 3289-3305 [Target]. *)
Definition mkFn (k : kind) (n : expr) (r : ty) (body : expr) (args : list expr)
  : res expr :=
  ts <- mapR type_of args ;; Ok (Node k (TFn (r :: ts)) (n :: body :: args)).

(** ir.py:3030-3031, 3172-3173 [return_type] *)
Definition fn_return_type (t : ty) : res ty :=
  match t with
  | TFn (r :: _) => Ok r
  | TFn [] => Err ExIndex
  | _ => Err ExAttr
  end.

(** ir.py:113-184 [map_args], after [f] was applied to the arguments: rebuild a
    node of the same class.  The dispatch uses [isinstance], so [NonTerm]
    becomes [Var], [TargetCall] becomes [Call], [Target] becomes [FnDecl].
    [Assert], [Constraint] and [Synth] raise "NYI".  [f] may return any object
    for the name of a [Var], [Lit] or [Call]; it is stored as is. *)
Definition rebuild (k : kind) (t : ty) (args : list expr) : res expr :=
  match k with
  | KVar | KNonTerm =>
      match args with [x] => Ok (Node KVar t [x]) | _ => Err ExIndex end
  | KLit => match args with [x] => Ok (Node KLit t [x]) | _ => Err ExIndex end
  | KAdd | KMul => mkArithN k args
  | KSub | KDiv | KMod => mkArith2 k args
  | KEq => mkEq args
  | KLt | KLe | KGt | KGe => mkCmp k args
  | KAnd | KOr => mkBoolN k args
  | KNot => mkNot args
  | KImplies => mkImplies args
  | KIte => mkIte args
  | KLet => mkLet args
  | KCall | KTargetCall =>
      match args with f :: r => mkCall f t r | [] => Err ExIndex end
  | KCallValue => mkCallValue args
  | KTupleExpr => mkTupleExpr args
  | KAxiom => mkAxiom args
  | KChoose => mkChoose args
  | KFnDeclRec =>
      match args with
      | n :: b :: r => rt <- fn_return_type t ;; mkFn KFnDeclRec n rt b r
      | _ => Err ExIndex
      end
  | KFnDecl | KTarget =>
      match args with
      | n :: b :: r => rt <- fn_return_type t ;; mkFn KFnDecl n rt b r
      | _ => Err ExIndex
      end
  | KAssert | KConstraint | KSynth => Err ExNYI
  end.

(** ir.py:113-184 [map_args].  Simplification: for [FnDecl]/[FnDeclRecursive]
    the code does not apply [f] to the name; all functions passed in the
    modelled code return plain objects unchanged, and [f] is applied to the name
    here as well. The "NYI" exception is raised after, not before, mapping. *)
Definition map_args (f : expr -> res expr) (e : expr) : res expr :=
  match e with
  | Atom _ => Err ExAttr
  | Node k t args => args' <- mapR f args ;; rebuild k t args'
  end.

(* ------------------------------------------------------------------ *)
(** The expressions that can be built by the constructors, bottom up.
    [wf] covers everything [map_args] supports except the subclasses
    [NonTerm]/[TargetCall]/[Target], which are in [wf_any]. *)
Inductive wf : expr -> Prop :=
| wf_Var x t : wf (mkVar x t)
| wf_Lit a t : wf (mkLit a t)
| wf_ArithN k args e : In k [KAdd; KMul] -> Forall wf args ->
    mkArithN k args = Ok e -> wf e
| wf_Arith2 k args e : In k [KSub; KDiv; KMod] -> Forall wf args ->
    mkArith2 k args = Ok e -> wf e
| wf_Eq args e : Forall wf args -> mkEq args = Ok e -> wf e
| wf_Cmp k args e : In k [KLt; KLe; KGt; KGe] -> Forall wf args ->
    mkCmp k args = Ok e -> wf e
| wf_BoolN k args e : In k [KAnd; KOr] -> Forall wf args ->
    mkBoolN k args = Ok e -> wf e
| wf_Not args e : Forall wf args -> mkNot args = Ok e -> wf e
| wf_Implies args e : Forall wf args -> mkImplies args = Ok e -> wf e
| wf_Ite args e : Forall wf args -> mkIte args = Ok e -> wf e
| wf_Let args e : Forall wf args -> mkLet args = Ok e -> wf e
| wf_Call f t args e : Forall wf args ->
    mkCall (Atom (PStr f)) t args = Ok e -> wf e
| wf_CallValue args e : Forall wf args -> mkCallValue args = Ok e -> wf e
| wf_TupleExpr args e : Forall wf args -> mkTupleExpr args = Ok e -> wf e
| wf_Axiom args e : Forall wf args -> mkAxiom args = Ok e -> wf e
| wf_Choose args e : Forall wf args -> mkChoose args = Ok e -> wf e
| wf_Fn k f r body args e : In k [KFnDeclRec; KFnDecl] ->
    wf body \/ body = Atom PNone \/ (exists s, body = Atom (PStr s)) ->
    Forall wf args -> mkFn k (Atom (PStr f)) r body args = Ok e -> wf e.
