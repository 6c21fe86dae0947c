(** How LLMLift reads a solution that a language model has written in Python:
    llmlift_scripts/parser.py, and the passes of llmlift_scripts/synthesis.py that
    run on what was read. *)

From Coq Require Import String List ZArith Bool.
From Verif Require Import Ast Dict ObjModel.
Import ListNotations.
Local Open Scope string_scope.
Local Open Scope list_scope.
Local Open Scope Z_scope.

(** ** Types *)

(** mypy.types, as far as parser.py:73-112 looks at them: an annotation before it is
    bound, the parameter list of a [Callable], a class with arguments (a literal
    such as [1] has an [Instance] too), a function type, [Any], no recorded type,
    any other type. *)
Inductive mty : Type :=
| MUnbound (name : string) (optional : bool) (args : list mty)
| MTypeList (items : list mty)
| MInstance (fullname : string) (args : list mty)
| MCallable (args : list mty) (ret : mty)
| MAny | MNone | MOther.

(** A type argument for which nothing is known is Python's [None] (typing turns it
    into [NoneType]).  It is written as the empty tuple type, which no annotation
    has otherwise. *)
Definition no_ty : ty := TTuple [].
Definition inner (o : option ty) : ty := match o with Some t => t | None => no_ty end.

(** parser.py:73-112 [mypy_type_to_ir_type].  [None]: the function returns [None],
    also when it falls off its end (an unbound type or a class with another name). *)
Fixpoint ir_ty (m : mty) : res (option ty) :=
  match m with
  | MUnbound n opt args =>
      if opt then Err ExNYI
      else if String.eqb n "int" then Ok (Some TInt)
      else if String.eqb n "bool" then Ok (Some TBool)
      else if String.eqb n "Any" then Ok None
      else if String.eqb n "List" || String.eqb n "list" then
        match args with
        | [a] => t <- ir_ty a ;; Ok (Some (TList (inner t)))
        | _ => Ok None
        end
      else if String.eqb n "Callable" then
        match args with
        | [MTypeList items; r] =>
            t <- ir_ty r ;; ts <- mapR ir_ty items ;;
            Ok (Some (TFn (inner t :: map inner ts)))
        | [_; _] => Err ExNYI
        | _ => Err ExArity
        end
      else Ok None
  | MInstance n args =>
      if String.eqb n "builtins.int" then Ok (Some TInt)
      else if String.eqb n "builtins.bool" then Ok (Some TBool)
      else if String.eqb n "builtins.list" then
        match args with
        | a :: _ => t <- ir_ty a ;; Ok (Some (TList (inner t)))
        | [] => Err ExIndex
        end
      else Ok None
  | MCallable args r =>
      t <- ir_ty r ;; ts <- mapR ir_ty args ;;
      Ok (Some (TFn (inner t :: map inner ts)))
  | MAny | MNone => Ok None
  | MTypeList _ | MOther => Err ExNYI
  end.

(** ir.py:94-98 [is_fn_decl_type] *)
Definition is_fn_ty (t : ty) : bool := match t with TFn _ => true | _ => false end.

(** ** Syntax trees *)

(** mypy.nodes: the expressions parser.py:232-515 distinguishes.  A name, a list
    display, a call of a named function and a lambda carry the type mypy has found
    for them ([types[node]]); other types are not looked at (except in messages).
    [NCall] has one keyword for each argument ([None]: positional); [NMethod] is a
    call of a method, [NApply] a call of anything else that is no name; [NSlice] has
    the three parts of a slice; [NOther] is any other node. *)
Inductive pnode : Type :=
| NName (x : string) (t : mty)
| NInt (z : Z)
| NOp (op : string) (l r : pnode)
| NUnary (op : string) (e : pnode)
| NList (items : list pnode) (t : mty)
| NCond (c a b : pnode)
| NCmp (operands : list pnode) (operators : list string)
| NIndex (b i : pnode)
| NSlice (b : pnode) (st en step : option pnode)
| NCall (f : string) (args : list pnode) (keywords : list (option string)) (t : mty)
| NMethod | NApply
| NLambda (params : list string) (t : mty) (body : pnode)
| NOther.

(** the statements of a function body; [SOther]: any other statement, among them
    [if], a nested [def] and an expression statement *)
Inductive lval : Type := LName (x : string) | LOther.
Inductive pstmt : Type :=
| SAssign (lhs : list lval) (e : pnode)
| SReturn (e : option pnode)
| SOther.

(** a function definition: parameters, its type, its body *)
Record pfun : Type := {
  f_name : string; f_params : list string; f_type : mty; f_body : list pstmt }.

(** ** State of the parser *)

(** parser.py:537-538 [fn_decls], [in_calls]; 523-524 [lambda_exprs],
    [arg_name_to_count], which outlive a call of [check_solution] *)
Record pst : Type := {
  s_decls : list expr; s_calls : list (string * string);
  s_lams : list (expr * string); s_count : dict nat }.

(** a computation that changes the state and may raise; what was changed before an
    exception stays changed *)
Definition M (A : Type) : Type := pst -> res A * pst.
Definition ret {A} (a : A) : M A := fun s => (Ok a, s).
Definition raise {A} (x : exn) : M A := fun s => (Err x, s).
Definition lift {A} (r : res A) : M A := fun s => (r, s).
Definition bindM {A B} (m : M A) (f : A -> M B) : M B :=
  fun s => match m s with (Ok a, s') => f a s' | (Err x, s') => (Err x, s') end.
Notation "x <-- m ;; k" := (bindM m (fun x => k)) (at level 90, m at next level, right associativity).

(** parser.py:174-195: the signature kept for a function: IR types of the
    parameters, IR type of the result, names of the parameters *)
Record psig : Type := { g_args : list ty; g_ret : ty; g_names : list string }.

(** ** Objects among the arguments of an expression *)

(** parser.py:408 ([list_concat] without [.src]) and 431 ([Sub(Int(0), ..)]): an IR
    object, not its expression, is returned or stored.  It is written as a
    [KConstraint] node, which the parser makes nowhere else. *)
Definition robj (e : expr) : expr :=
  match e with Node _ t _ => Node KConstraint t [e] | Atom _ => e end.
(** ir.py:675-676 [get_object_expr] *)
Definition unobj (e : expr) : expr := match e with Node KConstraint _ [x] => x | _ => e end.
Definition is_obj (e : expr) : bool := match e with Node KConstraint _ _ => true | _ => false end.

(** ir.py:303-323 [Expr.__eq__], with objects among the arguments.  Two [Int] objects
    differ always ([Int.__ne__], ir.py:998-1001, gives an object, which is true), two
    [List] objects never ([List.__eq__], 1208-1212, gives an object; there is no
    [List.__ne__]); an object and an expression cannot be compared ([other.src]). *)
Definition is_con (k : kind) : bool := match k with KConstraint => true | _ => false end.
Fixpoint eq_expr (a b : expr) : res bool :=
  match a, b with
  | Atom x, Atom y => Ok (atom_eqb x y)
  | Node k1 t1 l1, Node k2 t2 l2 =>
      if is_con k1 && is_con k2 then Ok (negb (ty_eqb t1 TInt && ty_eqb t2 TInt))
      else if is_con k1 || is_con k2 then Err ExAttr
      else if negb (kind_eqb k1 k2) || negb (Nat.eqb (List.length l1) (List.length l2)) then Ok false
      else
        (fix go (l1 l2 : list expr) : res bool :=
           match l1, l2 with
           | x :: r1, y :: r2 => q <- eq_expr x y ;; if q then go r1 r2 else Ok false
           | _, _ => Ok true
           end) l1 l2
  | _, _ => Ok false
  end.

(** [e in lambda_exprs] and [lambda_exprs[e]]: all expressions have the same hash
    (ir.py:331-332), so the entries are compared in turn.  Simplification: Python
    finds the very object [e] without comparing; it is never in the dictionary when
    it is looked up. *)
Fixpoint find_lam (l : list (expr * string)) (e : expr) : res (option string) :=
  match l with
  | [] => Ok None
  | (k, n) :: r => q <- eq_expr k e ;; if q then Ok (Some n) else find_lam r e
  end.

(** ** Reading expressions *)

(** ir.py:653-668 [create_object] with a name *)
Definition named (t : ty) (x : string) : res expr :=
  match t with TTuple [] => Err ExAttr | _ => Ok (mkVar x t) end.

(** parser.py:388-400: arithmetic on two integers *)
Definition int_node (op : string) (l r : expr) : res expr :=
  if String.eqb op "+" then mkArithN KAdd [l; r]
  else if String.eqb op "-" then mkArith2 KSub [l; r]
  else if String.eqb op "*" then mkArithN KMul [l; r]
  else if String.eqb op "//" || String.eqb op "/" then mkArith2 KDiv [l; r]
  else if String.eqb op "%" then mkArith2 KMod [l; r]
  else Err ExNYI.
(** [is_list_type(t) and not is_nested_list_type(t)], parser.py:401-406 *)
Definition flat_list (t : ty) : bool := is_list_type t && negb (is_nested_list_type t).
(** parser.py:384-423 *)
Definition op_node (op : string) (l r : expr) : res expr :=
  tl <- type_of l ;; tr <- type_of r ;;
  if ty_eqb tl TInt && ty_eqb tr TInt then int_node op l r
  else if flat_list tl && flat_list tr then
    if String.eqb op "+" then
      o <- call "list_concat" (TList TInt) [{| o_ty := tl; o_src := unobj l |}; {| o_ty := tr; o_src := unobj r |}] ;;
      Ok (robj (o_src o))
    else Err ExNYI
  else if ty_eqb tl TBool && ty_eqb tr TBool then
    if String.eqb op "and" then mkBoolN KAnd [l; r]
    else if String.eqb op "or" then mkBoolN KOr [l; r]
    else Err ExNYI
  else Err ExNYI.

(** parser.py:424-433 *)
Definition unary_node (op : string) (e : res expr) : res expr :=
  if String.eqb op "-" then
    e <- e ;; t <- type_of e ;;
    if ty_eqb t TInt then mkArith2 KSub [robj (IntLit 0); e] else Err ExTypes
  else Err ExNYI.

(** parser.py:436-438: the elements of a list display are not looked at *)
Definition list_node (t : mty) : res expr :=
  o <- ir_ty t ;;
  match o with
  | Some (TList c) => e <- list_empty c ;; Ok (o_src e)
  | _ => Err ExAttr
  end.

(** parser.py:439-444, ir.py:695-706 [ite] *)
Definition cond_node (c a b : expr) : res expr :=
  t <- type_of a ;; e <- mkIte [unobj c; unobj a; unobj b] ;;
  o <- create_object t e ;; Ok (o_src o).

(** parser.py:451-473: one clause of a comparison *)
Definition clause (op : string) (l r : expr) : res expr :=
  tl <- type_of l ;; tr <- type_of r ;;
  if String.eqb op "==" then
    if ty_eqb tl tr then mkEq [l; r] else Err ExTypes
  else if negb (ty_eqb tl TInt) || negb (ty_eqb tr TInt) then Err ExTypes
  else if String.eqb op ">" then mkCmp KGt [l; r]
  else if String.eqb op "<" then mkCmp KLt [l; r]
  else if String.eqb op ">=" then mkCmp KGe [l; r]
  else if String.eqb op "<=" then mkCmp KLe [l; r]
  else if String.eqb op "!=" then e <- mkEq [l; r] ;; mkNot [e]
  else Err ExNYI.
(** parser.py:447-450: the loop; both operands of a clause are read for the clause, so
    an operand in the middle of a chain is read twice *)
Fixpoint clauses (ops : list string) (acts : list (M expr)) : M (list expr) :=
  match ops, acts with
  | op :: ops', a :: ((b :: _) as rest) =>
      l <-- a ;; r <-- b ;; c <-- lift (clause op l r) ;;
      cs <-- clauses ops' rest ;; ret (c :: cs)
  | _ :: _, _ => raise ExIndex
  | [], _ => ret []
  end.
(** parser.py:474-477 *)
Definition conj (cs : list expr) : res expr :=
  match cs with [c] => Ok c | _ => mkBoolN KAnd cs end.

(** parser.py:480 [create_object(base_expr.type, base_expr)]: an object is neither
    an expression nor a name *)
Definition base_object (b : expr) : res obj :=
  t <- type_of b ;;
  if is_obj b then Err ExTypes
  else match t, b with
       | TFn _, Node (KFnDecl | KFnDeclRec) _ _ => create_object t b
       | TFn _, _ => Err ExTypes
       | _, _ => create_object t b
       end.
(** parser.py:505-506 *)
Definition index_node (b i : expr) : res expr :=
  o <- base_object b ;; o' <- getitem o (IxObj {| o_ty := TInt; o_src := unobj i |}) ;; Ok (o_src o').
(** parser.py:494-503 *)
Definition slice_node (b : obj) (st en : option expr) : res expr :=
  let bd (e : expr) := SObj {| o_ty := TInt; o_src := unobj e |} in
  match st, en with
  | None, None => Err ExNYI
  | _, _ => o' <- getitem b (IxSlice (option_map bd st) (option_map bd en) None) ;; Ok (o_src o')
  end.

(** parser.py:307-317: [len(x)]; [is_nested_list_type] (ir.py:60) of a type without
    arguments raises *)
Definition len_node (a : expr) : res expr :=
  t <- type_of a ;;
  match t with
  | TInt | TBool => Err ExIndex
  | _ => o <- call (if is_matrix_type t || is_nested_list_type t then "matrix_length" else "list_length")
                   TInt [{| o_ty := t; o_src := unobj a |}] ;; Ok (o_src o)
  end.

(** [FnDeclRecursive.set_name], ir.py:3021-3022 *)
Definition set_name (e : expr) (n : string) : expr :=
  match e with Node k t (_ :: r) => Node k t (Atom (PStr n) :: r) | _ => e end.

(** what parser.py:348-369 distinguishes about an argument *)
Inductive ashape : Type := ALambda | AName (x : string) | AOther.
Definition shape_of (n : pnode) : ashape :=
  match n with NLambda _ _ _ => ALambda | NName x _ => AName x | _ => AOther end.

(** parser.py:348-369: what happens to a function that is passed to [f]; [names] are the
    names of the parameters from this one on *)
Definition fn_arg (f : string) (names : list string) (sh : ashape) (e : expr) : M expr :=
  fun s =>
    match sh with
    | ALambda =>
        match find_lam (s_lams s) e with
        | Err x => (Err x, s)
        | Ok (Some n) =>
            (Ok (set_name e n),
             {| s_decls := s_decls s ++ [set_name e n]; s_calls := s_calls s ++ [(f, n)];
                s_lams := s_lams s; s_count := s_count s |})
        | Ok None =>
            match names with
            | [] => (Err ExIndex, s)
            | p :: _ =>
                let c := match dget (s_count s) p with Some c => c | None => 0%nat end in
                let n := (p ++ "_" ++ string_of_nat c)%string in
                (Ok (set_name e n),
                 {| s_decls := s_decls s ++ [set_name e n]; s_calls := s_calls s ++ [(f, n)];
                    s_lams := s_lams s ++ [(e, n)]; s_count := dset (s_count s) p (c + 1)%nat |})
            end
        end
    | AName x =>
        (Ok e, {| s_decls := s_decls s ++ [e]; s_calls := s_calls s ++ [(f, x)];
                  s_lams := s_lams s; s_count := s_count s |})
    | AOther => (Err ExNYI, s)
    end.

(** parser.py:335-370: the loop over the arguments; [zip] stops with the shortest *)
Fixpoint call_args (f : string) (acts : list (M expr * ashape)) (tys : list ty) (names : list string)
  : M (list expr) :=
  match acts, tys with
  | (a, sh) :: acts', t :: tys' =>
      e <-- a ;;
      te <-- lift (type_of e) ;;
      if negb (ty_eqb te t) then raise ExTypes
      else
        e' <-- (if is_fn_ty te then fn_arg f names sh e else ret e) ;;
        es <-- call_args f acts' tys' (tl names) ;; ret (e' :: es)
  | _, _ => ret []
  end.

(** parser.py:320-378 a call of a function of the DSL or of the solution; keywords are
    not looked at *)
Definition call_node (sigs : dict psig) (f : string) (acts : list (M expr * ashape)) (t : mty) : M expr :=
  match dget sigs f with
  | None => raise ExNYI
  | Some g =>
      if negb (Nat.eqb (List.length acts) (List.length (g_args g))) then raise ExArity
      else
        es <-- call_args f acts (g_args g) (g_names g) ;;
        actual <-- lift (ir_ty t) ;;
        match actual with
        | Some a =>
            if ty_eqb a (g_ret g) then
              lift (o <- call f (g_ret g) (map (fun e => {| o_ty := TInt; o_src := unobj e |}) es) ;; Ok (o_src o))
            else raise ExTypes
        | None => raise ExTypes
        end
  end.

(** parser.py:251-264, ir.py:740-749, 3012-3019: a declaration from parameter names,
    a function type and a body.  [zip] stops with the shortest of names and types. *)
Fixpoint params (names : list string) (tys : list ty) : res (list expr) :=
  match names, tys with
  | n :: ns, t :: ts => v <- named t n ;; vs <- params ns ts ;; Ok (v :: vs)
  | _, _ => Ok []
  end.

(** parser.py:241-515 [parse_node] on expressions.  The arguments of a call are read
    inside [call_args], those of a comparison inside [clauses]. *)
Fixpoint parse (sigs : dict psig) (n : pnode) {struct n} : M expr :=
  match n with
  | NName x t =>
      o <-- lift (ir_ty t) ;;
      match o with Some t => lift (named t x) | None => raise ExAttr end
  | NInt z => ret (IntLit z)
  | NOp op l r => el <-- parse sigs l ;; er <-- parse sigs r ;; lift (op_node op el er)
  | NUnary op e =>
      if String.eqb op "-" then e' <-- parse sigs e ;; lift (unary_node op (Ok e'))
      else raise ExNYI
  | NList _ t => lift (list_node t)
  | NCond c a b =>
      ec <-- parse sigs c ;; ea <-- parse sigs a ;; eb <-- parse sigs b ;; lift (cond_node ec ea eb)
  | NCmp operands ops =>
      cs <-- clauses ops (map (parse sigs) operands) ;; lift (conj cs)
  | NIndex b i =>
      eb <-- parse sigs b ;; o <-- lift (base_object eb) ;;
      ei <-- parse sigs i ;; lift (index_node eb ei)
  | NSlice b st en _ =>
      eb <-- parse sigs b ;; o <-- lift (base_object eb) ;;
      es <-- match st with Some n => e <-- parse sigs n ;; ret (Some e) | None => ret None end ;;
      ee <-- match en with Some n => e <-- parse sigs n ;; ret (Some e) | None => ret None end ;;
      lift (slice_node o es ee)
  | NCall f args _ t =>
      if String.eqb f "len" then
        match args with
        | [a] => e <-- parse sigs a ;; lift (len_node e)
        | _ => raise ExArity
        end
      else call_node sigs f (map (fun a => (parse sigs a, shape_of a)) args) t
  | NMethod => raise ExNYI
  | NApply => ret (Atom PNone)
  | NLambda ps t body =>
      o <-- lift (ir_ty t) ;;
      match o with
      | Some (TFn (r :: ts)) =>
          vs <-- lift (params ps ts) ;; b <-- parse sigs body ;;
          lift (mkFn KFnDeclRec (Atom (PStr "<lambda>")) r (unobj b) vs)
      | _ => raise ExAttr
      end
  | NOther => raise ExNYI
  end.

(** ** Reading functions *)

(** parser.py:254-256: [sorted(variables, key=lambda x: x.var_name())], stable *)
Definition vname (e : expr) : string := match e with Node _ _ [Atom (PStr x)] => x | _ => "" end.
Fixpoint insert (v : expr) (l : list expr) : list expr :=
  match l with
  | [] => [v]
  | w :: r => if String.leb (vname v) (vname w) then v :: w :: r else w :: insert v r
  end.
Fixpoint sort_vars (l : list expr) : list expr :=
  match l with [] => [] | v :: r => insert v (sort_vars r) end.

(** parser.py:265-298: a body of one or two statements *)
Definition parse_body (sigs : dict psig) (b : list pstmt) : M expr :=
  match b with
  | [SAssign lhs e; SReturn r] =>
      match lhs, r with
      | [LName x], Some (NName y _) => if String.eqb x y then parse sigs e else raise ExNYI
      | _, _ => raise ExNYI
      end
  | [_; _] => raise ExNYI
  | [SReturn (Some e)] => parse sigs e
  | _ => raise ExNYI
  end.

(** parser.py:243-264 on a [FuncDef], 514-515 *)
Definition parse_fun (sigs : dict psig) (f : pfun) : M expr :=
  match dget sigs (f_name f) with
  | None => raise ExKey
  | Some g =>
      vs <-- lift (params (f_params f) (g_args g)) ;;
      b <-- parse_body sigs (f_body f) ;;
      d <-- lift (mkFn KFnDeclRec (Atom (PStr (f_name f))) (g_ret g) (unobj b) (sort_vars vs)) ;;
      fun s => (Ok d, {| s_decls := s_decls s ++ [d]; s_calls := s_calls s;
                         s_lams := s_lams s; s_count := s_count s |})
  end.

(** parser.py:174-196: signatures of the functions of the solution and of the DSL.  The
    test [any(arg_ir_types) is None] never holds. *)
Fixpoint sign (fs : list pfun) (d : dict psig) : res (dict psig) :=
  match fs with
  | [] => Ok d
  | f :: r =>
      o <- ir_ty (f_type f) ;;
      match o with
      | Some (TFn (t :: ts)) =>
          if ty_eqb t no_ty then Err ExNYI
          else sign r (dset d (f_name f) {| g_args := ts; g_ret := t; g_names := f_params f |})
      | _ => Err ExNYI
      end
  end.

Fixpoint parse_funs (sigs : dict psig) (fs : list pfun) : M unit :=
  match fs with
  | [] => ret tt
  | f :: r => _ <-- parse_fun sigs f ;; parse_funs sigs r
  end.

(** parser.py:518-551 [check_solution] after mypy has parsed the text: the target
    functions, the functions of the DSL, and the two dictionaries that are kept *)
Definition check_solution (expected : nat) (target dsl : list pfun) (lams : list (expr * string)) (cnt : dict nat)
  : res unit * pst :=
  let s0 := {| s_decls := []; s_calls := []; s_lams := lams; s_count := cnt |} in
  if negb (Nat.eqb (List.length target) expected) then (Err ExNYI, s0)
  else match sign (target ++ dsl) [] with
       | Err x => (Err x, s0)
       | Ok sigs => parse_funs sigs target s0
       end.

(** ** synthesis.py: what happens to the declarations *)

(** synthesis.py:70-77: the names looked at *)
Definition is_decl (e : expr) : bool :=
  match e with Node (KFnDecl | KFnDeclRec | KTarget) _ _ => true | _ => false end.
Definition is_call (e : expr) : bool :=
  match e with Node (KCall | KTargetCall) _ _ => true | _ => false end.
Definition decl_name (e : expr) : string :=
  match e with Node _ _ (Atom (PStr n) :: _) => n | _ => "" end.

(** synthesis.py:68-103 [replace_in_call]: a function that is an argument of a call
    becomes its name.  The parser's declarations have only variables as parameters, for
    which the loop does the same as for any other argument.  An object has no
    [map_args]. *)
Fixpoint replace_in_call (p : string * string) (e : expr) {struct e} : res expr :=
  match e with
  | Atom _ => Err ExAttr
  | Node k t args =>
      let one (caller : string) (a : expr) :=
        if is_decl a && String.eqb (decl_name a) (snd p) && String.eqb caller (fst p)
        then ta <- type_of a ;; Ok (mkVar (snd p) ta)
        else replace_in_call p a in
      match k with
      | KVar | KNonTerm | KLit => Ok e
      | KCall | KTargetCall =>
          match args with
          | n :: rest => rest' <- mapR (one (decl_name e)) rest ;; mkCall n t rest'
          | [] => Err ExIndex
          end
      | KFnDecl | KTarget | KFnDeclRec =>
          match args with
          | n :: b :: rest =>
              rest' <- mapR (one (decl_name e)) rest ;; b' <- replace_in_call p b ;;
              rt <- fn_return_type t ;;
              mkFn (match k with KFnDeclRec => KFnDeclRec | _ => KFnDecl end) n rt b' rest'
          | _ => Err ExIndex
          end
      | KConstraint => Err ExAttr
      | _ => args' <- mapR (replace_in_call p) args ;; rebuild k t args'
      end
  end.
(** synthesis.py:106-109 [replace_in_calls] *)
Fixpoint replace_in_calls (ps : list (string * string)) (e : expr) : res expr :=
  match ps with
  | [] => Ok e
  | p :: r => e' <- replace_in_call p e ;; replace_in_calls r e'
  end.

(** synthesis.py:112-123 [process_ps_fn_decl] *)
Definition ps_decl (d : expr) (out : expr) : res expr :=
  match d with
  | Node k t (Atom (PStr n) :: b :: args) =>
      e <- mkEq [out; b] ;; mkFn k (Atom (PStr (n ++ "_ps"))) TBool e (args ++ [out])
  | _ => Err ExAttr
  end.

(** synthesis.py:186-212 [process_synthesized_fn_decls]; [if] after [if], so that the
    new name is compared again *)
Definition rename_if (from to : string) (d : expr) : expr :=
  if String.eqb (decl_name d) from then set_name d to else d.
Definition process_decl (out : expr) (bench : string) (d : expr) : res expr :=
  let d := rename_if "invariant" (bench ++ "_inv0") d in
  let d := rename_if "invariant1" (bench ++ "_inv0") d in
  let d := rename_if "invariant2" (bench ++ "_inv1") d in
  if String.eqb (decl_name d) bench then ps_decl d out else Ok d.
