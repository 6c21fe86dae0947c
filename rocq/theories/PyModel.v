(** metalift/frontend/python.py: from the syntax tree of a Python function to
    verification conditions.

    The syntax tree is mypy's; [VCVisitor] walks over it with a symbolic state that
    maps each Python variable to an IR object. *)

From Coq Require Import String List ZArith Bool.
From Verif Require Import Ast Dict ObjModel UtilModel.
Import ListNotations.
Local Open Scope Z_scope.
Local Open Scope string_scope.
Local Open Scope list_scope.

(** ** Syntax trees *)

(** mypy.nodes expressions that [VCVisitor] has a [visit_*] method for
    (python.py:673-815).  [True] and [False] are [EName]s in mypy.  The type mypy
    inferred for a call is kept in the node ([self.types.get(o)], python.py:812). *)
Inductive mtype : Type := MtInt | MtList (t : mtype) | MtSet (t : mtype) | MtOther (s : string).

Inductive pexpr : Type :=
| EInt (z : Z)
| EName (x : string)
| ECmp (operators : list string) (operands : list pexpr)
| EOp (op : string) (l r : pexpr)
| ETuple (items : list pexpr)
| EIndex (base index : pexpr)
| EList (items : list pexpr)
| EUnary (op : string) (e : pexpr)
| ECallFn (f : string) (args : list pexpr) (t : mtype)
| ECallMethod (callee : pexpr) (name : string) (args : list pexpr).

(** mypy.nodes statements.  [SOther]: the ones whose [visit_*] raises
    [NotImplementedError] (python.py:362-447, 570-571, 657-676).  A loop carries a
    number that stands for the identity of its node.  The left-hand sides of an
    assignment are names; the [else] of a loop is not looked at by the visitor and
    is left out. *)
Inductive stmt : Type :=
| SAssign (lvalues : list string) (rvalue : pexpr)
| SExpr (e : pexpr)
| SWhile (id : nat) (cond : pexpr) (body : list stmt)
| SReturn (e : pexpr)
| SIf (cond : pexpr) (body : list stmt) (else_body : list stmt)
| SOther.

(** a [FuncDef] with its type *)
Record funcdef : Type := {
  f_name : string; f_formals : list (string * mtype); f_ret : mtype; f_body : list stmt }.

(** ** State *)

(** python.py:101-125 [State] *)
Record state : Type := {
  precond : list expr; vars : dict obj; asserts : list expr; has_returned : bool }.

(** python.py:120-123 [State.read] *)
Definition read (s : state) (x : string) : res obj :=
  match dget (vars s) x with Some o => Ok o | None => Err ExKey end.
(** python.py:125-126 [State.write].  Simplification: an object is a value.  In
    Python two variables can refer to one [List] object, which [List.append] then
    changes for both; no theorem speaks about programs that copy a list
    variable. *)
Definition write (s : state) (x : string) (o : obj) : state :=
  {| precond := precond s; vars := dset (vars s) x o; asserts := asserts s;
     has_returned := has_returned s |}.
Definition add_assert (s : state) (e : expr) : state :=
  {| precond := precond s; vars := vars s; asserts := asserts s ++ [e];
     has_returned := has_returned s |}.
Definition add_precond (s : state) (e : expr) : state :=
  {| precond := precond s ++ [e]; vars := vars s; asserts := asserts s;
     has_returned := has_returned s |}.
Definition set_returned (s : state) : state :=
  {| precond := precond s; vars := vars s; asserts := asserts s; has_returned := true |}.
Definition set_vars (s : state) (d : dict obj) : state :=
  {| precond := precond s; vars := d; asserts := asserts s; has_returned := has_returned s |}.

(** python.py:129-152 [to_object_type] *)
Definition to_object_type (t : mtype) : res ty :=
  match t with
  | MtInt => Ok TInt
  | MtList MtInt => Ok (TList TInt)
  | MtSet MtInt => Ok (TSet TInt)
  | _ => Err ExNYI
  end.

(** ir.py:653-668 [create_object] with a name: a variable *)
Definition var_obj (t : ty) (x : string) : obj := {| o_ty := t; o_src := mkVar x t |}.
(** ir.py:794-797 [Object.var_name] *)
Definition var_name (o : obj) : res string :=
  match o_src o with
  | Node (KVar | KNonTerm) _ [Atom (PStr x)] => Ok x
  | _ => Err ExValue
  end.

(** ** Expressions *)

Section MapS.
  Variables (A B S : Type) (f : A -> S -> res (B * S)).
  (** [[a.accept(self) for a in l]]: the visitor may change the state *)
  Fixpoint mapS (l : list A) (s : S) : res (list B * S) :=
    match l with
    | [] => Ok ([], s)
    | a :: r => p <- f a s ;; q <- mapS r (snd p) ;; Ok (fst p :: fst q, snd q)
    end.
End MapS.
Arguments mapS {A B S} f l s.

(** python.py:695-710 [process_comparison] *)
Definition process_comparison (op : string) (l r : obj) : res obj :=
  if negb (ty_eqb (o_ty l) TInt) || negb (ty_eqb (o_ty r) TInt) then Err ExTypes
  else if String.eqb op ">" then int_cmp KGt l r
  else if String.eqb op "<" then int_cmp KLt l r
  else if String.eqb op "==" then int_eq l r
  else if String.eqb op ">=" then int_cmp KGe l r
  else if String.eqb op "<=" then int_cmp KLe l r
  else Err ExNYI.

(** python.py:686-692 [visit_comparison_expr], after the operands were visited.
    [e and f] on two [Bool] objects is [f]: an object without [__bool__] counts as
    true. *)
Fixpoint compare_chain (e : obj) (ops : list string) (left : obj) (operands : list obj) : res obj :=
  match ops, operands with
  | [], _ => Ok e
  | op :: ops', r :: operands' =>
      e' <- process_comparison op left r ;; compare_chain e' ops' r operands'
  | _ :: _, [] => Err ExIndex
  end.
Definition comparison (ops : list string) (operands : list obj) : res obj :=
  match ops, operands with
  | op :: ops', l :: r :: operands' =>
      e <- process_comparison op l r ;; compare_chain e ops' r operands'
  | _, _ => Err ExIndex
  end.

(** python.py:712-745 [visit_op_expr], after the operands were visited *)
Definition op_expr (op : string) (l r : obj) : res obj :=
  let ints := ty_eqb (o_ty l) TInt && ty_eqb (o_ty r) TInt in
  let bools := ty_eqb (o_ty l) TBool && ty_eqb (o_ty r) TBool in
  if String.eqb op "+" then (if ints then int_op KAdd l r else Err ExTypes)
  else if String.eqb op "-" then (if ints then int_op KSub l r else Err ExTypes)
  else if String.eqb op "*" then (if ints then int_op KMul l r else Err ExTypes)
  else if String.eqb op "//" then (if ints then int_op KDiv l r else Err ExTypes)
  else if String.eqb op "and" then
    (if bools then e <- and_objects [o_src l; o_src r] ;; Ok {| o_ty := TBool; o_src := e |} else Err ExTypes)
  else if String.eqb op "or" then
    (if bools then e <- or_objects [o_src l; o_src r] ;; Ok {| o_ty := TBool; o_src := e |} else Err ExTypes)
  else Err ExNYI.

(** ir.py:1711-1726 [Tuple.__getitem__]: the index must be a literal *)
Definition tuple_getitem (b : obj) (ts : list ty) (i : obj) : res obj :=
  match o_src i with
  | Node KLit _ [Atom (PInt z)] =>
      let j := (if z <? 0 then z + Z.of_nat (length ts) else z)%Z in
      if (j <? 0)%Z then Err ExIndex else
      match nth_error ts (Z.to_nat j) with
      | Some t => if is_primitive_type t then call "tupleGet" t [b; i] else Err ExTypes
      | None => Err ExIndex
      end
  | _ => Err ExAttr
  end.

(** python.py:751-763 [visit_index_expr], after index and base were visited *)
Definition index_expr (b i : obj) : res obj :=
  if negb (ty_eqb (o_ty i) TInt) then Err ExTypes else
  match o_ty b with
  | TTuple ts => tuple_getitem b ts i
  | TList _ | TMatrix _ | TTensor3D _ => getitem b (IxObj i)
  | _ => Err ExTypes
  end.

(** ir.py:760-762 [make_tuple] *)
Definition make_tuple (os : list obj) : res obj :=
  e <- mkTupleExpr (map o_src os) ;; Ok {| o_ty := TTuple (map o_ty os); o_src := e |}.

Definition one {A} (l : list A) : res A := match l with [a] => Ok a | _ => Err ExArity end.

Section Visitor.
(** [fn_name], [args] (the objects passed to the analysed function), the names of
    uninterpreted functions, the types mypy recorded for [NameExpr]s (python.py:323;
    simplification: one type for each name) and the name of the predicate recorded
    for the function (python.py:551). *)
Variables (fn_name : string) (fargs : list obj) (uninterp : list string) (types : dict mtype).

(** python.py:677-815: the [visit_*] methods for expressions *)
Fixpoint vexpr (e : pexpr) (s : state) {struct e} : res (obj * state) :=
  match e with
  (* 680-681 *)
  | EInt z => Ok (int_lit z, s)
  (* 683-684 *)
  | EName x => o <- read s x ;; Ok (o, s)
  (* 686-692 *)
  | ECmp ops es =>
      p <- mapS vexpr es s ;; o <- comparison ops (fst p) ;; Ok (o, snd p)
  (* 712-745 *)
  | EOp op l r =>
      p <- vexpr l s ;; q <- vexpr r (snd p) ;;
      o <- op_expr op (fst p) (fst q) ;; Ok (o, snd q)
  (* 747-749 *)
  | ETuple es => p <- mapS vexpr es s ;; o <- make_tuple (fst p) ;; Ok (o, snd p)
  (* 751-763 *)
  | EIndex b i =>
      p <- vexpr i s ;; q <- vexpr b (snd p) ;;
      o <- index_expr (fst q) (fst p) ;; Ok (o, snd q)
  (* 765-768 *)
  | EList [] => o <- list_empty TInt ;; Ok (o, s)
  | EList (_ :: _) => Err ExNYI
  (* 770-776 *)
  | EUnary op e =>
      if String.eqb op "-" then
        p <- vexpr e s ;;
        if ty_eqb (o_ty (fst p)) TInt then
          o <- int_op KSub (int_lit 0) (fst p) ;; Ok (o, snd p)
        else Err ExTypes
      else Err ExNYI
  (* 778-784, 808-814 *)
  | ECallFn f es t =>
      if String.eqb f "len" then
        p <- mapS vexpr es s ;;
        a <- one (fst p) ;;
        if is_list_type (o_ty a) then o <- o_len a ;; Ok (o, snd p) else Err ExTypes
      else if smem f uninterp then
        p <- mapS vexpr es s ;;
        t' <- to_object_type t ;;
        o <- call f t' (fst p) ;; Ok (o, snd p)
      else Err ExNYI
  | ECallMethod c m es =>
      (* 785-795 *)
      if String.eqb m "append" then
        p <- vexpr c s ;;
        if negb (is_list_type (o_ty (fst p))) then Err ExTypes else
        q <- mapS vexpr es (snd p) ;;
        a <- one (fst q) ;;
        x <- var_name (fst p) ;;
        l <- append (fst p) a ;;
        Ok (l, write (snd q) x l)
      (* 796-807 *)
      else if String.eqb m "add" || String.eqb m "remove" then
        p <- vexpr c s ;;
        match o_ty (fst p) with
        | TSet _ =>
            q <- mapS vexpr es (snd p) ;;
            a <- one (fst q) ;;
            single <- call "set-singleton" (TSet (o_ty a)) [a] ;;
            r <- call (if String.eqb m "add" then "set-union" else "set-minus") (o_ty (fst p)) [fst p; single] ;;
            x <- var_name (fst p) ;;
            Ok (r, write (snd q) x r)
        | _ => Err ExTypes
        end
      else Err ExNYI
  end.

(** ** Variables read and written in a loop *)

(** python.py:155-201 [RWVarsVisitor], the writes; it collects them in a set *)
Fixpoint expr_writes (e : pexpr) : list string :=
  match e with
  | EInt _ | EName _ => []
  | ECmp _ es | ETuple es | EList es => flat_map expr_writes es
  | EOp _ l r => expr_writes l ++ expr_writes r
  | EIndex b i => expr_writes b ++ expr_writes i
  | EUnary _ e => expr_writes e
  | ECallFn _ es _ => flat_map expr_writes es
  | ECallMethod c m es =>
      (if String.eqb m "append" || String.eqb m "add" || String.eqb m "remove" then
         match c with EName x => [x] | _ => [] end
       else []) ++ expr_writes c ++ flat_map expr_writes es
  end.
(** … and the reads *)
Fixpoint expr_reads (e : pexpr) : list string :=
  match e with
  | EInt _ => []
  | EName x => [x]
  | ECmp _ es | ETuple es | EList es => flat_map expr_reads es
  | EOp _ l r => expr_reads l ++ expr_reads r
  | EIndex b i => expr_reads b ++ expr_reads i
  | EUnary _ e => expr_reads e
  | ECallFn _ es _ => flat_map expr_reads es
  | ECallMethod c _ es => expr_reads c ++ flat_map expr_reads es
  end.

Fixpoint stmt_writes (s : stmt) : list string :=
  match s with
  | SAssign xs e => xs ++ expr_writes e
  | SExpr e | SReturn e => expr_writes e
  | SWhile _ c b => expr_writes c ++ flat_map stmt_writes b
  | SIf c b e => expr_writes c ++ flat_map stmt_writes b ++ flat_map stmt_writes e
  | SOther => []
  end.
Fixpoint stmt_reads (s : stmt) : list string :=
  match s with
  | SAssign _ e => expr_reads e
  | SExpr e | SReturn e => expr_reads e
  | SWhile _ c b => expr_reads c ++ flat_map stmt_reads b
  | SIf c b e => expr_reads c ++ flat_map stmt_reads b ++ flat_map stmt_reads e
  | SOther => []
  end.

(** [sorted(set(l))] of names, as python.py:460-464 *)
Fixpoint insert_name (x : string) (l : list string) : list string :=
  match l with
  | [] => [x]
  | y :: r => match String.compare x y with
              | Eq => l
              | Lt => x :: l
              | Gt => y :: insert_name x r
              end
  end.
Definition sorted_set (l : list string) : list string := fold_right insert_name [] l.

(** python.py:166-169, 186-188: a name without a recorded type fails an assertion;
    480-488: the objects created for the names *)
Definition objects_of (xs : list string) : res (list obj) :=
  mapR (fun x => match dget types x with
                 | Some t => t' <- to_object_type t ;; Ok (var_obj t' x)
                 | None => Err ExAttr
                 end) xs.

(** python.py:446-454 [in_scope_vars], sorted *)
Definition in_scope_vars (s : state) : list string :=
  sorted_set (filter (fun x => dmem types x) (dkeys (vars s))).

(** ** Predicates *)

(** python.py:204-233 [Predicate] (the grammar callback and [synth] left out) *)
Record predicate : Type := {
  p_args : list obj; p_writes : list obj; p_reads : list obj; p_scope : list obj; p_name : string }.

(** python.py:235-237 [Predicate.call] *)
Definition pred_call (p : predicate) (s : state) : res expr :=
  os <- mapR (fun v => x <- var_name v ;; read s x) (p_args p) ;;
  o <- call (p_name p) TBool os ;; Ok (o_src o).

(** what the visitors of one run share: [driver.var_tracker] (python.py:298-342,
    838-842) and [pred_tracker] (245-253) *)
Record glob : Type := {
  g_vars : dict ty;
  g_invs : list (nat * predicate);    (* [predicates], keyed by loop *)
  g_post : dict predicate;            (* [predicates], keyed by function *)
  g_num : nat }.

Definition add_var_object (g : glob) (x : string) (t : ty) : glob :=
  {| g_vars := dset (g_vars g) x t; g_invs := g_invs g; g_post := g_post g; g_num := g_num g |}.

Fixpoint find_inv (l : list (nat * predicate)) (id : nat) : option predicate :=
  match l with
  | [] => None
  | (i, p) :: r => if Nat.eqb i id then Some p else find_inv r id
  end.

(** insertion sort by variable name, python.py:270 *)
Fixpoint insert_obj (o : obj) (l : list obj) : res (list obj) :=
  match l with
  | [] => _ <- var_name o ;; Ok [o]
  | p :: r =>
      x <- var_name o ;; y <- var_name p ;;
      match String.compare x y with
      | Gt => r' <- insert_obj o r ;; Ok (p :: r')
      | _ => Ok (o :: l)
      end
  end.
Fixpoint sort_objs (l : list obj) : res (list obj) :=
  match l with [] => Ok [] | o :: r => r' <- sort_objs r ;; insert_obj o r' end.

(** frontend/utils.py:20-42: [ObjectSet(a) - ObjectSet(b)] on objects *)
Definition objs_in (o : obj) (l : list obj) : bool := existsb (fun p => expr_eqb (o_src p) (o_src o)) l.
Fixpoint objs_init_from (s l : list obj) : list obj :=
  match l with [] => s | o :: r => objs_init_from (if objs_in o s then s else s ++ [o]) r end.
Definition objs_sub (a b : list obj) : list obj :=
  objs_init_from [] (filter (fun o => negb (objs_in o b)) (objs_init_from [] a)).

(** python.py:255-279 [PredicateTracker.invariant] *)
Definition invariant (g : glob) (id : nat) (writes reads scope : list obj) : res (glob * predicate) :=
  match find_inv (g_invs g) id with
  | Some p => Ok (g, p)
  | None =>
      rest <- sort_objs (objs_sub scope fargs) ;;
      let p := {| p_args := fargs ++ rest; p_writes := writes; p_reads := reads; p_scope := scope;
                  p_name := (fn_name ++ "_inv" ++ string_of_nat (g_num g))%string |} in
      Ok ({| g_vars := g_vars g; g_invs := (id, p) :: g_invs g; g_post := g_post g; g_num := S (g_num g) |}, p)
  end.

(** python.py:281-292 [PredicateTracker.postcondition] *)
Definition postcondition (g : glob) (outs ins : list obj) : glob * predicate :=
  match dget (g_post g) fn_name with
  | Some p => (g, p)
  | None =>
      let p := {| p_args := ins ++ outs; p_writes := outs; p_reads := ins; p_scope := [];
                  p_name := (fn_name ++ "_ps")%string |} in
      ({| g_vars := g_vars g; g_invs := g_invs g; g_post := dset (g_post g) fn_name p; g_num := g_num g |}, p)
  end.

(** ** Statements *)

(** [implies(and_objects of precond, e) if precond else e], python.py:507-511,
    555-563 *)
Definition under_precond (s : state) (e : expr) : res expr :=
  match precond s with
  | [] => Ok e
  | ps => c <- and_objects ps ;; i <- mkImplies [c; e] ;; mkBoolObj i
  end.

(** [e in asserts] on a list of [Bool] objects: [list.__contains__] takes the truth
    value of [x == e], and [Bool.__eq__] (ir.py:873-876) returns an expression
    object, which counts as true *)
Definition in_asserts (e : expr) (l : list expr) : bool := match l with [] => false | _ => true end.
(** python.py:629-631 *)
Fixpoint merge_asserts (acc es : list expr) : list expr :=
  match es with
  | [] => acc
  | e :: r => merge_asserts (if in_asserts e acc then acc else acc ++ [e]) r
  end.

(** [c_e != a_e], the truth value: [Int] and [Bool] define [__ne__], which returns
    an object (ir.py:878-881, 998-1001); [List] and [Set] define only [__eq__],
    which returns an object (1208-1212, 1659-1660), and Python negates its truth
    value; [Tuple] inherits [Object.__eq__] (812-815). *)
Definition obj_ne (c a : obj) : bool :=
  match o_ty c with
  | TInt | TBool => true
  | TList _ | TMatrix _ | TTensor3D _ | TSet _ => false
  | TTuple _ | TFn _ => negb (expr_eqb (o_src c) (o_src a))
  end.

(** python.py:640-646: a variable that is new in only one branch *)
Definition only_in_one (s c a : dict obj) (v : string) : bool :=
  negb (dmem s v) &&
  ((negb (dmem c v) && dmem a v) || (dmem c v && negb (dmem a v))).
(** python.py:649-654 *)
Fixpoint merge_vars (cond : obj) (cs : dict obj) (a acc : dict obj) : res (dict obj) :=
  match cs with
  | [] => Ok acc
  | (v, c_e) :: r =>
      match dget a v with
      | None => Err ExKey
      | Some a_e =>
          o <- (if obj_ne c_e a_e then ite cond c_e a_e else Ok c_e) ;;
          merge_vars cond r a (dset acc v o)
      end
  end.

(** python.py:625-654: the state after an if statement *)
Definition merge_if (cond : obj) (s c a : state) : res state :=
  let s1 := {| precond := precond s; vars := vars s;
               asserts := merge_asserts (asserts s) (asserts c ++ asserts a);
               has_returned := has_returned s |} in
  match has_returned c, has_returned a with
  | true, true => Ok s1
  | true, false => Ok (set_vars s1 (vars a))
  | false, true => Ok (set_vars s1 (vars c))
  | false, false =>
      if existsb (only_in_one (vars s) (vars c) (vars a)) (dkeys (vars c) ++ dkeys (vars a))
      then Err ExValue
      else d <- merge_vars cond (vars c) (vars a) (vars s) ;; Ok (set_vars s1 d)
  end.

Section Run.
  Variables (A S : Type) (f : A -> S -> res S).
  Fixpoint runS (l : list A) (s : S) : res S :=
    match l with [] => Ok s | a :: r => s' <- f a s ;; runS r s' end.
End Run.
Arguments runS {A S} f l s.

(** python.py:512-519: havoc of the written variables, in sorted order
    (Python iterates over a set) *)
Fixpoint havoc (ws : list obj) (g : glob) (s : state) : res (glob * state) :=
  match ws with
  | [] => Ok (g, s)
  | o :: r => x <- var_name o ;; havoc r (add_var_object g x (o_ty o)) (write s x o)
  end.

Fixpoint vstmt (st : stmt) (gs : glob * state) {struct st} : res (glob * state) :=
  let g := fst gs in let s := snd gs in
  match st with
  (* 355-360 [visit_assignment_stmt] *)
  | SAssign [x] e => p <- vexpr e s ;; Ok (g, write (snd p) x (fst p))
  | SAssign _ _ => Err ExNYI
  (* 440-441 [visit_expression_stmt] *)
  | SExpr e => p <- vexpr e s ;; Ok (g, snd p)
  (* 456-545 [visit_while_stmt] *)
  | SWhile id c body =>
      wr <- objects_of (sorted_set (stmt_writes st)) ;;
      rd <- objects_of (sorted_set (stmt_reads st)) ;;
      sc <- objects_of (in_scope_vars s) ;;
      gi <- invariant g id wr rd sc ;;
      let inv := snd gi in
      (* inv is true on loop entry, 506-511 *)
      i0 <- pred_call inv s ;;
      a0 <- under_precond s i0 ;;
      (* havoc, 514-518 *)
      h <- havoc wr (fst gi) (add_assert s a0) ;;
      let s1 := snd h in
      (* the body, from a copy of the state, 520-537 *)
      b <- runS vstmt body h ;;
      (* inv is preserved, 540-551 *)
      pc <- vexpr c s1 ;;
      let s2 := snd pc in let cond := o_src (fst pc) in
      i1 <- pred_call inv s2 ;;
      hyp <- and_objects (precond s2 ++ [cond; i1]) ;;
      i2 <- pred_call inv (snd b) ;;
      a1 <- mkImplies [hyp; i2] ;; a1 <- mkBoolObj a1 ;;
      let s3 := add_assert s2 a1 in
      (* from this point on, 554-557 *)
      nc <- mkNot [cond] ;;
      i3 <- pred_call inv s3 ;;
      ex <- and_objects [nc; i3] ;;
      Ok (fst b, add_precond s3 ex)
  (* 547-568 [visit_return_stmt] *)
  | SReturn e =>
      match dget (g_post g) fn_name with
      | None => Err ExKey
      | Some p =>
          q <- vexpr e s ;;
          ps <- call (p_name p) TBool (fargs ++ [fst q]) ;;
          a <- under_precond (snd q) (o_src ps) ;;
          Ok (g, set_returned (add_assert (snd q) a))
      end
  (* 573-655 [visit_if_stmt] *)
  | SIf c body els =>
      p <- vexpr c s ;;
      let s1 := snd p in
      if negb (ty_eqb (o_ty (fst p)) TBool) then Err ExTypes else
      nc <- mkNot [o_src (fst p)] ;;
      x <- runS vstmt body (g, add_precond s1 (o_src (fst p))) ;;
      y <- runS vstmt els (fst x, add_precond s1 nc) ;;
      s' <- merge_if (fst p) s1 (snd x) (snd y) ;;
      Ok (fst y, s')
  | SOther => Err ExNYI
  end.

(** python.py:437-438 [visit_block] *)
Definition vblock : list stmt -> glob * state -> res (glob * state) := runS vstmt.

End Visitor.
Arguments runS {A S} f l s.

(** python.py:371-411 [visit_func_def]: bind the parameters, record the
    postcondition, visit the body *)
Fixpoint bind_formals (formals : list (string * mtype)) (args : list obj) (s : state) : res state :=
  match formals, args with
  | (x, t) :: fr, a :: ar =>
      t' <- to_object_type t ;;
      if ty_eqb t' (o_ty a) then bind_formals fr ar (write s x a) else Err ExTypes
  | [], [] => Ok s
  | _, _ => Err ExArity
  end.

Definition visit_func_def (uninterp : list string) (types : dict mtype) (f : funcdef) (args : list obj)
           (g : glob) (s : state) : res (glob * state) :=
  rt <- to_object_type (f_ret f) ;;
  let g0 := add_var_object g (f_name f) rt in
  if negb (Nat.eqb (length (f_formals f)) (length args)) then Err ExArity else
  s0 <- bind_formals (f_formals f) args s ;;
  let rv := var_obj rt (f_name f ++ "_rv")%string in
  let g1 := fst (postcondition (f_name f) g0 [rv] args) in
  vblock (f_name f) args uninterp types (f_body f) (g1, s0).

(** ** The driver *)

(** python.py:818-836 [Driver] ([fns], [fns_synths] left out), and the lists that
    are the default values of [State.__init__]'s parameters (107-113): they are
    created once, so every [State()] shares them. *)
Record driver : Type := {
  d_glob : glob; d_asserts : list expr; d_post : list expr }.
Definition new_driver : driver :=
  {| d_glob := {| g_vars := []; g_invs := []; g_post := []; g_num := 0 |}; d_asserts := []; d_post := [] |}.
Definition new_state : state := {| precond := []; vars := []; asserts := []; has_returned := false |}.

(** python.py:955-989 [MetaliftFunc.__call__].  [shared]: what the default lists of
    [State()] hold.  [state.precond += ...] and the [append]s of the visitor change
    these lists in place.  Simplification: the default dictionary of variables is
    taken to be empty again in the next call (variables of an earlier call can only
    be seen by reading a name that was never assigned). *)
Definition call_func (uninterp : list string) (types : dict mtype) (f : funcdef) (args : list obj)
           (d : driver) (shared : state) : res (obj * driver * state) :=
  let s := {| precond := precond shared ++ d_post d; vars := []; asserts := asserts shared; has_returned := false |} in
  gs <- visit_func_def uninterp types f args (d_glob d) s ;;
  rt <- to_object_type (f_ret f) ;;
  let rv := var_obj rt (f_name f ++ "_rv")%string in
  ps <- call (f_name f ++ "_ps")%string TBool (rv :: args) ;;
  Ok (rv,
      {| d_glob := add_var_object (fst gs) (f_name f ++ "_rv")%string rt;
         d_asserts := d_asserts d ++ asserts (snd gs);
         d_post := d_post d ++ [o_src ps] |},
      {| precond := precond (snd gs); vars := []; asserts := asserts (snd gs); has_returned := false |}).

(** python.py:872-876 [Driver.synthesize]: the verification condition *)
Definition driver_vc (d : driver) : res expr := and_objects (d_asserts d).

(** the verification condition of a function analysed on its own, with parameters
    given as variables of the parameter's names *)
Definition param_objs (f : funcdef) : res (list obj) :=
  mapR (fun p => t <- to_object_type (snd p) ;; Ok (var_obj t (fst p))) (f_formals f).
Definition analyze (uninterp : list string) (types : dict mtype) (f : funcdef) : res driver :=
  args <- param_objs f ;;
  r <- call_func uninterp types f args new_driver new_state ;;
  Ok (snd (fst r)).
Definition func_vc (uninterp : list string) (types : dict mtype) (f : funcdef) : res expr :=
  d <- analyze uninterp types f ;; driver_vc d.
