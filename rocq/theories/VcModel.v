(** metalift/vc.py: the older generator of verification conditions, which works on a
    graph of basic blocks that metalift/analysis.py has annotated with [assert],
    [assume] and [havoc] instructions (analysis.py:192-303), called at
    analysis.py:409. *)

From Coq Require Import String List ZArith Bool.
From Verif Require Import Ast Dict LlModel.
Import ListNotations.
Local Open Scope Z_scope.
Local Open Scope string_scope.
Local Open Scope list_scope.

(** An LLVM operand as [parse_operand] tells them apart (vc_util.py:10-30): a value
    with a name, or a constant.  Simplification: values are identified by their name
    (there: by the object, or else by their text). *)
Inductive vop : Type := VName (x : string) | VNum (z : Z) | VTrue | VFalse.

(** What [evalMLInst] accepts (vc.py:479-509): a named LLVM value, the LLVM constant
    [i32 0], a [Lit] of type [Bool], the [MLInst]s [load], [not], [or] and [call]
    (ir.py:3313-3394), anything else.  Simplification: [Expr]s other than literals
    (489-493), which only a caller-supplied [wrapSummaryCheck] (analysis.py:260)
    makes, are left out. *)
Inductive minst : Type :=
| MVal (x : string) | MZero | MLit (b : bool)
| MLoad (p : string) | MNot (m : minst) | MOr (m : minst)
| MCall (f : string) (t : ty) (args : list minst)
| MOther.

(** The instructions [compute] knows (vc.py:320-468).  Types are the ones
    [parse_type_ref_to_obj] (ir.py:623-651) gives for the LLVM type of the
    instruction, for [alloca] the one chosen at vc.py:329-346.  [JSkip]: [br], [ret]
    and [switch]; [JCast]: [bitcast] and [sext]; [JOther]: not supported. *)
Inductive vinstr : Type :=
| JAlloca (x : string) (t : ty)
| JLoad (x : string) (t : ty) (p : string)
| JStore (v : vop) (p : string)
| JBin (k : kind) (x : string) (a b : vop)
| JCmp (cond x : string) (t : ty) (a b : vop)
| JSkip
| JCast (x : string) (a : vop)
| JCall (x : string) (t : ty) (f : string) (args : list vop)
| JAssert (m : minst)
| JAssume (m : minst)
| JHavoc (ps : list string)
| JOther.

(** vc.py:57-67 [Block]; predecessors and successors by name *)
Record vblock : Type := { k_name : string; k_instrs : list vinstr; k_preds : list string; k_succs : list string }.

(** vc.py:30-46 [State].  Left out: [args], which is never read, and [gvars], which
    only the models of library functions use. *)
Record vstate : Type := {
  w_regs : dict expr; w_mem : dict expr; w_assumes : list expr; w_funs : list string; w_vc : option expr }.
Definition new_vstate : vstate := {| w_regs := []; w_mem := []; w_assumes := []; w_funs := []; w_vc := None |}.
Definition set_reg (s : vstate) (x : string) (e : expr) : vstate :=
  {| w_regs := dset (w_regs s) x e; w_mem := w_mem s; w_assumes := w_assumes s; w_funs := w_funs s; w_vc := w_vc s |}.
Definition set_mem (s : vstate) (x : string) (e : expr) : vstate :=
  {| w_regs := w_regs s; w_mem := dset (w_mem s) x e; w_assumes := w_assumes s; w_funs := w_funs s; w_vc := w_vc s |}.
Definition add_assume (s : vstate) (e : expr) : vstate :=
  {| w_regs := w_regs s; w_mem := w_mem s; w_assumes := w_assumes s ++ [e]; w_funs := w_funs s; w_vc := w_vc s |}.
Definition set_vc (s : vstate) (e : expr) : vstate :=
  {| w_regs := w_regs s; w_mem := w_mem s; w_assumes := w_assumes s; w_funs := w_funs s; w_vc := Some e |}.

(** [self.vars] and [self.havocNum] (vc.py:82-87); [self.preds] stays empty *)
Record vglob : Type := { q_vars : list expr; q_num : nat }.

(** the type that [makeVar] is called with: an llvmlite [TypeRef] (116, 259, 264), or
    a class of ir.py (141, 286, 288, 307, and 463, where it is the type of an
    expression) *)
Inductive tyarg : Type := TypeRef (t : ty) | IrClass (t : ty).

(** vc_util.py:10-30 [parse_operand] with [hasType] *)
Definition parse_operand (op : vop) (d : dict expr) : res expr :=
  match op with
  | VName x => match dget d x with Some e => Ok e | None => Err ExKey end
  | VNum z => Ok (IntLit z)
  | VTrue => Ok (BoolLit true)
  | VFalse => Ok (BoolLit false)
  end.

(** vc.py:479-509 [evalMLInst].  [MLInst_Or] takes one operand, and [Or] gets that
    one (501). *)
Fixpoint eval_minst (regs mem : dict expr) (m : minst) {struct m} : res expr :=
  match m with
  | MVal x => match dget regs x with Some e => Ok e | None => Err ExKey end
  | MZero => Ok (IntLit 0)
  | MLit b => Ok (BoolLit b)
  | MLoad p => match dget mem p with Some e => Ok e | None => Err ExKey end
  | MNot m => e <- eval_minst regs mem m ;; mkNot [e]
  | MOr m => e <- eval_minst regs mem m ;; mkBoolN KOr [e]
  | MCall f t args => es <- mapR (eval_minst regs mem) args ;; mkCall (Atom (PStr f)) t es
  | MOther => Err ExNYI
  end.

(** vc.py:329-346: the contents of new memory *)
Definition alloca_value (t : ty) : res expr :=
  match t with
  | TInt => Ok (IntLit 0)
  | TBool => Ok (BoolLit false)
  | TList TInt | TSet TInt | TTuple _ => Ok (mkLit (PInt 0) t)
  | _ => Err ExNYI
  end.

(** vc.py:384-395 *)
Definition icmp_value (cond : string) (a b : expr) : res expr :=
  if String.eqb cond "eq" then mkEq [b; a]
  else if String.eqb cond "ne" then e <- mkEq [b; a] ;; mkNot [e]
  else if String.eqb cond "sgt" then mkCmp KLt [b; a]
  else if String.eqb cond "sle" then mkCmp KLe [a; b]
  else if String.eqb cond "slt" || String.eqb cond "ult" then mkCmp KLt [a; b]
  else Err ExNYI.

(** the functions in models.py:282-303 [fn_models], which are not modelled *)
Definition model_names : list string :=
  ["newList"; "listLength"; "listAppend"; "listGet"; "vector"; "size"; "push_back"; "operator[]"; "getField"; "setField";
   "set_create"; "set_add"; "set_remove"; "set_contains"; "MakeTuple"; "tupleGet"].

(** [And( *l) if len(l) > 1 else l[0]] (vc.py:180, 219-221), the same with [Or] (183,
    224) *)
Definition nary (k : kind) (l : list expr) : res expr :=
  match l with
  | [] => Err ExIndex
  | [e] => Ok e
  | _ => mkBoolN k l
  end.

(** vc.py:160-193 [merge]: for each name the different values, each with the path
    conditions of the predecessors that have it ([add_value] of LlModel is the same
    grouping) *)
Definition group (cs : list (list expr * dict expr)) : dict values :=
  fold_left (fun acc c =>
    fold_left (fun acc p =>
      dset acc (fst p) (add_value (snd p) (fst c) (match dget acc (fst p) with Some vs => vs | None => [] end)))
      (snd c) acc) cs [].
Definition value_path (paths : list (list expr)) : res expr := ps <- mapR (nary KAnd) paths ;; nary KOr ps.
Fixpoint ite_chain (acc : expr) (vs : list (expr * expr)) : res expr :=
  match vs with
  | [] => Ok acc
  | (e, c) :: r => acc' <- mkIte [c; e; acc] ;; ite_chain acc' r
  end.
Definition merge_value (vs : values) : res expr :=
  match vs with
  | [] => Err ExIndex
  | [(e, _)] => Ok e
  | _ =>
      cs <- mapR (fun p => c <- value_path (snd p) ;; Ok (fst p, c)) vs ;;
      match cs with (e, _) :: r => ite_chain e r | [] => Err ExIndex end
  end.
Definition merge_container (cs : list (list expr * dict expr)) : res (dict expr) :=
  mapR (fun p => e <- merge_value (snd p) ;; Ok (fst p, e)) (group cs).

(** vc.py:195-243 [mergeStates], given the states of the predecessors *)
Definition merge_vstates (ss : list vstate) : res vstate :=
  match ss with
  | [] => Err ExIndex
  | [s] => Ok {| w_regs := w_regs s; w_mem := w_mem s; w_assumes := w_assumes s; w_funs := w_funs s; w_vc := None |}
  | s0 :: _ =>
      regs <- merge_container (map (fun s => (w_assumes s, w_regs s)) ss) ;;
      mem <- merge_container (map (fun s => (w_assumes s, w_mem s)) ss) ;;
      es <- mapR (nary KAnd) (map w_assumes ss) ;;
      e <- nary KOr es ;;
      if forallb (fun s => list_eqb String.eqb (w_funs s) (w_funs s0)) ss then
        Ok {| w_regs := regs; w_mem := mem; w_assumes := [e]; w_funs := w_funs s0; w_vc := None |}
      else Err ExValue
  end.

(** insertion into a list sorted by name (vc.py:262, 138) *)
Fixpoint insert_by {A} (x : string) (a : A) (l : list (string * A)) : list (string * A) :=
  match l with
  | [] => [(x, a)]
  | (y, b) :: r => match String.compare x y with Gt => (y, b) :: insert_by x a r | _ => (x, a) :: l end
  end.
Fixpoint sort_by {A} (l : list (string * A)) : list (string * A) :=
  match l with [] => [] | (x, a) :: r => insert_by x a (sort_by r) end.

Section Vc.
(** [self.fnName], and what [isinstance(ty, Object)] is for a class of ir.py *)
Variables (fn : string) (is_object : ty -> bool).

Definition full (n : string) : string := (fn ++ "_" ++ n)%string.

(** vc.py:98: [any(v.args[0] == e.args[0] and v.type == ty for v in self.vars)] *)
Definition declared (x : string) (t : ty) (vs : list expr) : bool :=
  existsb (fun v => match v with
                    | Node _ t' (Atom (PStr y) :: _) => String.eqb y x && ty_eqb t' t
                    | _ => false
                    end) vs.
(** vc.py:89-102 [makeVar] *)
Definition make_var (g : vglob) (n : string) (a : tyarg) : res (expr * vglob) :=
  t <- match a with
       | TypeRef t => Ok t
       | IrClass t => if is_object t then Ok t else Err ExNYI
       end ;;
  let e := mkVar (full n) t in
  Ok (e, {| q_vars := if declared (full n) t (q_vars g) then q_vars g else q_vars g ++ [e]; q_num := q_num g |}).

(** a list of calls of [makeVar] *)
Fixpoint make_vars (g : vglob) (l : list (string * tyarg)) : res (list expr * vglob) :=
  match l with
  | [] => Ok ([], g)
  | (n, a) :: r => p <- make_var g n a ;; q <- make_vars (snd p) r ;; Ok (fst p :: fst q, snd q)
  end.

(** vc.py:460-465 *)
Fixpoint havoc_all (ps : list string) (g : vglob) (s : vstate) : res (vglob * vstate) :=
  match ps with
  | [] => Ok (g, s)
  | p :: r =>
      match dget (w_mem s) p with
      | None => Err ExKey
      | Some e =>
          t <- type_of e ;;
          q <- make_var g (p ++ "_" ++ string_of_nat (q_num g))%string (IrClass t) ;;
          havoc_all r {| q_vars := q_vars (snd q); q_num := S (q_num (snd q)) |} (set_mem s p (fst q))
      end
  end.

(** what [compute] changes while it walks over a block: [self], [s], [assigns]
    (the names with their types, vc.py:315) and [asserts] (316) *)
Record walk : Type := { z_glob : vglob; z_st : vstate; z_assigns : dict ty; z_asserts : list expr }.
Definition w_set (z : walk) (s : vstate) : walk :=
  {| z_glob := z_glob z; z_st := s; z_assigns := z_assigns z; z_asserts := z_asserts z |}.
Definition w_assign (z : walk) (x : string) (t : ty) (e : expr) : walk :=
  {| z_glob := z_glob z; z_st := set_reg (z_st z) x e; z_assigns := dset (z_assigns z) x t; z_asserts := z_asserts z |}.

(** vc.py:320-468: one instruction *)
Definition vstep (i : vinstr) (z : walk) : res walk :=
  let s := z_st z in
  match i with
  | JAlloca x t => e <- alloca_value t ;; Ok (w_set z (set_mem s x e))                             (* 327-359 *)
  | JLoad x t p =>                                                                                  (* 361-363 *)
      match dget (w_mem s) p with Some e => Ok (w_assign z x t e) | None => Err ExKey end
  | JStore v p => e <- parse_operand v (w_regs s) ;; Ok (w_set z (set_mem s p e))                  (* 365-367 *)
  | JBin k x a b =>                                                                                 (* 369-377 *)
      l <- parse_operand a (w_regs s) ;; r <- parse_operand b (w_regs s) ;;
      e <- match k with
           | KAdd | KMul => mkArithN k [l; r]
           | KSub => mkArith2 k [l; r]
           | _ => Err ExNYI
           end ;;
      Ok (w_set z (set_reg s x e))
  | JCmp cond x t a b =>                                                                            (* 379-398 *)
      l <- parse_operand a (w_regs s) ;; r <- parse_operand b (w_regs s) ;;
      e <- icmp_value cond l r ;; Ok (w_assign z x t e)
  | JSkip => Ok z                                                                                   (* 400-401 *)
  | JCast x a =>                                                                                    (* 403-409 *)
      if match a with VName y => dmem (w_regs s) y | _ => false end
      then e <- parse_operand a (w_regs s) ;; Ok (w_set z (set_reg s x e))
      else e <- parse_operand a (w_mem s) ;; Ok (w_set z (set_mem s x e))
  | JCall x t f args =>                                                                             (* 411-446 *)
      if smem f model_names then Err ExNYI
      else if smem f (w_funs s) then
        es <- mapR (fun a => match a with
                             | VName y => match dget (w_regs s) y with Some e => Ok e | None => Err ExKey end
                             | _ => Err ExKey
                             end) args ;;
        e <- mkCall (Atom (PStr f)) t es ;; Ok (w_assign z x t e)
      else Err ExNYI
  | JAssert m =>                                                                                    (* 448-450 *)
      e <- eval_minst (w_regs s) (w_mem s) m ;;
      Ok {| z_glob := z_glob z; z_st := s; z_assigns := z_assigns z; z_asserts := z_asserts z ++ [e] |}
  | JAssume m => e <- eval_minst (w_regs s) (w_mem s) m ;; Ok (w_set z (add_assume s e))           (* 452-453 *)
  | JHavoc ps =>                                                                                    (* 460-465 *)
      q <- havoc_all ps (z_glob z) s ;;
      Ok {| z_glob := fst q; z_st := snd q; z_assigns := z_assigns z; z_asserts := z_asserts z |}
  | JOther => Err ExNYI                                                                             (* 467-468 *)
  end.
Fixpoint vsteps (is : list vinstr) (z : walk) : res walk :=
  match is with [] => Ok z | i :: r => z' <- vstep i z ;; vsteps r z' end.

(** an optional conjunction of several formulas (vc.py:267-272, 283-295) *)
Definition conj (l : list expr) : res (option expr) :=
  match l with [] => Ok None | _ => e <- nary KAnd l ;; Ok (Some e) end.
(** vc.py:274-281, 297-304 *)
Definition both (a b : option expr) : res (option expr) :=
  match a, b with
  | None, None => Ok None
  | Some e, None | None, Some e => Ok (Some e)
  | Some e, Some f => g <- mkBoolN KAnd [e; f] ;; Ok (Some g)
  end.

(** vc.py:255-265: the equations for the assigned registers *)
Fixpoint assign_eqs (g : vglob) (regs : dict expr) (l : list (string * ty)) : res (list expr * vglob) :=
  match l with
  | [] => Ok ([], g)
  | (x, t) :: r =>
      p <- make_var g x (TypeRef t) ;;
      match dget regs x with
      | None => Err ExKey
      | Some e => q <- mkEq [fst p; e] ;; rest <- assign_eqs (snd p) regs r ;; Ok (q :: fst rest, snd rest)
      end
  end.

(** vc.py:245-311 [formVC].  [Eq] does not look at its arguments (ir.py:2075-2080),
    so a missing right-hand side only fails in [Implies]. *)
Definition form_vc (g : vglob) (b : string) (regs : dict expr) (assigns : dict ty) (assumes asserts : list expr) (succs : list string)
  : res (expr * vglob) :=
  a <- assign_eqs g regs (sort_by assigns) ;;
  assignE <- conj (fst a) ;;
  assumeE <- conj assumes ;;
  lhs <- both assignE assumeE ;;
  sv <- make_vars (snd a) (map (fun c => (c, IrClass TBool)) succs) ;;
  succE <- conj (fst sv) ;;
  assertE <- conj asserts ;;
  rhs <- both succE assertE ;;
  v <- make_var (snd sv) b (IrClass TBool) ;;
  let right := match rhs with Some e => e | None => Atom PNone end in
  r <- match lhs with None => Ok right | Some l => mkImplies [l; right] end ;;
  e <- mkEq [fst v; r] ;;
  Ok (e, snd v).

Definition vst (d : dict vstate) (b : string) : vstate := match dget d b with Some s => s | None => new_vstate end.
Definition has_vc (d : dict vstate) (b : string) : bool := match w_vc (vst d b) with Some _ => true | None => false end.

(** vc.py:313-475 [compute] *)
Definition compute (b : vblock) (gd : vglob * dict vstate) : res (vglob * dict vstate) :=
  s <- match k_preds b with [] => Ok (vst (snd gd) (k_name b)) | ps => merge_vstates (map (vst (snd gd)) ps) end ;;
  z <- vsteps (k_instrs b) {| z_glob := fst gd; z_st := s; z_assigns := []; z_asserts := [] |} ;;
  f <- form_vc (z_glob z) (k_name b) (w_regs (z_st z)) (z_assigns z) (w_assumes (z_st z)) (z_asserts z) (k_succs b) ;;
  Ok (snd f, dset (snd gd) (k_name b) (set_vc (z_st z) (fst f))).

(** vc.py:127-135.  Every pass but the last computes a block, so there is one more
    pass than blocks at most. *)
Definition vready (d : dict vstate) (b : vblock) : bool :=
  negb (has_vc d (k_name b)) && forallb (has_vc d) (k_preds b).
Fixpoint vpass (bs : list vblock) (gd : vglob * dict vstate) : res (bool * (vglob * dict vstate)) :=
  match bs with
  | [] => Ok (true, gd)
  | b :: r =>
      if vready (snd gd) b then gd' <- compute b gd ;; q <- vpass r gd' ;; Ok (false, snd q)
      else vpass r gd
  end.
Fixpoint vpasses (fuel : nat) (bs : list vblock) (gd : vglob * dict vstate) : res (vglob * dict vstate) :=
  match fuel with
  | O => Err ExFuel
  | S fuel => q <- vpass bs gd ;; if fst q : bool then Ok (snd q) else vpasses fuel bs (snd q)
  end.

(** vc.py:112-120: the state of the entry block *)
Definition entry_state (vs : list (string * expr)) (uninterp : list string) : vstate :=
  {| w_regs := fold_left (fun d p => dset d (fst p) (snd p)) vs []; w_mem := [];
     w_assumes := BoolLit true :: map (fun _ => BoolLit true) vs;
     w_funs := flat_map (fun _ => uninterp) vs; w_vc := None |}.

(** vc.py:104-157 [computeVC]: the declared variables and the condition.  The two
    other results are empty lists, because [self.preds] is never filled. *)
Definition compute_vc (bs : list vblock) (first : string) (args : list (string * ty)) (uninterp : list string)
  : res (list expr * expr) :=
  if negb (smem first (map k_name bs)) then Err ExKey else
  vs <- make_vars {| q_vars := []; q_num := 0 |} (map (fun p => (fst p, TypeRef (snd p))) args) ;;
  let d := [(first, entry_state (combine (map fst args) (fst vs)) uninterp)] in
  gd <- vpasses (S (length bs)) bs (snd vs, d) ;;
  let vcs := map (fun p => match w_vc (vst (snd gd) (fst p)) with Some e => e | None => Atom PNone end)
                 (sort_by (map (fun b => (k_name b, tt)) bs)) in
  c <- mkBoolN KAnd vcs ;;
  v <- make_var (fst gd) first (IrClass TBool) ;;
  body <- mkImplies [c; fst v] ;;
  Ok (q_vars (snd v), body).
End Vc.

(** [isinstance(ty, Object)] for the classes of ir.py: [Object] (ir.py:785) has no
    metaclass, and a class is not an instance of its base class; nor is [List[Int]],
    an object of typing's. *)
Definition class_is_object (t : ty) : bool := false.
