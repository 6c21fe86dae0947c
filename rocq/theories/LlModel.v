(** metalift/frontend/llvm.py: from an LLVM function to verification conditions.

    The visitor walks over the basic blocks in an order in which predecessors come
    first, with one symbolic state for each block. *)

From Coq Require Import String List ZArith Bool.
From Verif Require Import Ast Dict ObjModel UtilModel PyModel.
Import ListNotations.
Local Open Scope Z_scope.
Local Open Scope string_scope.
Local Open Scope list_scope.

(** ** LLVM functions *)

(** An operand: a named value with [type.is_pointer], or a constant
    (llvm.py:694-703). *)
Inductive operand : Type := OName (x : string) (ptr : bool) | OInt (z : Z) | OTrue | OFalse.

(** llvmlite instructions, as far as [visit_instruction] (llvm.py:1038-1071) knows
    them.  The type of an [alloca] and of a call is what [parse_type_ref_to_obj]
    (ir.py:623-651) gives for the allocated type, for the result of an
    uninterpreted function, and for the first argument of [push_back]; for the
    constructor [vector] it is the type that [new_vector] finds.  [IOther]: an opcode
    that is not supported. *)
Inductive instr : Type :=
| IAlloca (x : string) (t : ty)
| ILoad (x : string) (ptr : bool) (src : operand)
| IStore (v dst : operand)
| IBin (op x : string) (a b : operand)
| ICmp (cond x : string) (a b : operand)
| IConv (op x : string) (a : operand)
| ICall (x : string) (ptr : bool) (f : string) (args : list operand) (t : ty)
| IBr (target : string)
| ICondBr (c : operand) (t f : string)
| IRet (v : option operand)
| IOther.

(** vc.py:53-68 [Block]; predecessors and successors by name *)
Record block : Type := {
  b_name : string; b_instrs : list instr; b_preds : list string; b_succs : list string }.

(** llvm.py:414-422 [RawLoopInfo] *)
Record raw_loop : Type := {
  rl_header : string; rl_body : list string; rl_exits : list string; rl_latches : list string }.

Fixpoint last_instr (is : list instr) : option instr :=
  match is with [] => None | [i] => Some i | _ :: r => last_instr r end.

(** analysis.py:60-69: the targets; a [switch] is not supported by the visitor and
    left out.  llvmlite lists the false target of a conditional branch first. *)
Definition targets (is : list instr) : res (list string) :=
  match last_instr is with
  | Some (IBr t) => Ok [t]
  | Some (ICondBr _ t f) => Ok [f; t]
  | Some (IRet _) => Ok []
  | Some _ => Err ExValue
  | None => Err ExIndex
  end.

(** analysis.py:71-74: [bbs[t.name].preds.append(b)] for all targets of all blocks *)
Definition preds_of (x : string) (l : list (string * list string)) : list string :=
  flat_map (fun p => map (fun _ => fst p) (filter (String.eqb x) (snd p))) l.

(** analysis.py:54-76 [setupBlocks] *)
Definition setup_blocks (blks : list (string * list instr)) : res (list block) :=
  ts <- mapR (fun p => t <- targets (snd p) ;; Ok (fst p, t)) blks ;;
  if forallb (fun p => forallb (fun t => smem t (map fst blks)) (snd p)) ts then
    Ok (map (fun p => {| b_name := fst p; b_instrs := snd p; b_preds := preds_of (fst p) ts;
                         b_succs := match targets (snd p) with Ok t => t | Err _ => [] end |}) blks)
  else Err ExKey.

(** [l.remove(x)] *)
Fixpoint remove_one (x : string) (l : list string) : res (list string) :=
  match l with
  | [] => Err ExValue
  | y :: r => if String.eqb x y then Ok r else r' <- remove_one x r ;; Ok (y :: r')
  end.

Fixpoint find_block (bs : list block) (x : string) : option block :=
  match bs with
  | [] => None
  | b :: r => if String.eqb x (b_name b) then Some b else find_block r x
  end.
Definition get_block (bs : list block) (x : string) : res block :=
  match find_block bs x with Some b => Ok b | None => Err ExKey end.

(** llvm.py:462-464: [latch.succs.remove(header)] and [header.preds.remove(latch)] *)
Definition remove_edge (bs : list block) (latch header : string) : res (list block) :=
  l <- get_block bs latch ;; h <- get_block bs header ;;
  su <- remove_one header (b_succs l) ;; pr <- remove_one latch (b_preds h) ;;
  Ok (map (fun b =>
        {| b_name := b_name b; b_instrs := b_instrs b;
           b_preds := if String.eqb (b_name b) header then pr else b_preds b;
           b_succs := if String.eqb (b_name b) latch then su else b_succs b |}) bs).

(** llvm.py:426-460 [LoopInfo]: the pointers written in the loop.  Both kinds of
    entries are pointers, so [get_havocs] (1000-1017) never yields primitive ones. *)
Definition havoc_name (i : instr) : list string :=
  match i with
  | IStore _ (OName x _) => [x]
  | ICall _ _ f (OName x _ :: _) _ => if String.eqb f "push_back" then [x] else []
  | _ => []
  end.
Record loop_info : Type := { lo_header : string; lo_latches : list string; lo_havocs : list string }.
Definition loop_of (bs : list block) (rl : raw_loop) : res (list block * loop_info) :=
  h <- get_block bs (rl_header rl) ;;
  body <- mapR (get_block bs) (rl_body rl) ;;
  exits <- mapR (get_block bs) (rl_exits rl) ;;
  latches <- mapR (get_block bs) (rl_latches rl) ;;
  let hv := flat_map (fun b => flat_map havoc_name (b_instrs b)) (h :: body ++ exits ++ latches) in
  bs' <- (fix go (ls : list string) (bs : list block) : res (list block) :=
            match ls with
            | [] => Ok bs
            | l :: r => bs' <- remove_edge bs l (rl_header rl) ;; go r bs'
            end) (rl_latches rl) bs ;;
  Ok (bs', {| lo_header := rl_header rl; lo_latches := rl_latches rl; lo_havocs := hv |}).
(** llvm.py:1690-1694: one loop after the other *)
Fixpoint loops_of (bs : list block) (rls : list raw_loop) : res (list block * list loop_info) :=
  match rls with
  | [] => Ok (bs, [])
  | rl :: r =>
      p <- loop_of bs rl ;; q <- loops_of (fst p) r ;; Ok (fst q, snd p :: snd q)
  end.

(** ** States *)

(** llvm.py:663-686 [State]; [has_returned] is never looked at *)
Record lstate : Type := { l_precond : list expr; prims : dict obj; ptrs : dict obj; l_asserts : list expr }.
Definition no_state : lstate := {| l_precond := []; prims := []; ptrs := []; l_asserts := [] |}.

Definition with_precond (s : lstate) (ps : list expr) : lstate :=
  {| l_precond := ps; prims := prims s; ptrs := ptrs s; l_asserts := l_asserts s |}.
(** llvm.py:713-716, 734-735 [write_operand], [write_var] *)
Definition write_prim (s : lstate) (x : string) (o : obj) : lstate :=
  {| l_precond := l_precond s; prims := dset (prims s) x o; ptrs := ptrs s; l_asserts := l_asserts s |}.
(** llvm.py:718-721, 737-738 [store_operand], [store_var] *)
Definition write_ptr (s : lstate) (x : string) (o : obj) : lstate :=
  {| l_precond := l_precond s; prims := prims s; ptrs := dset (ptrs s) x o; l_asserts := l_asserts s |}.
Definition l_assert (s : lstate) (e : expr) : lstate :=
  {| l_precond := l_precond s; prims := prims s; ptrs := ptrs s; l_asserts := l_asserts s ++ [e] |}.

(** llvm.py:694-703 [read_operand] (a name that is not there raises) *)
Definition read_operand (s : lstate) (op : operand) : res obj :=
  match op with
  | OName x _ => match dget (prims s) x with Some o => Ok o | None => Err ExKey end
  | OInt z => Ok (int_lit z)
  | OTrue => Ok {| o_ty := TBool; o_src := BoolLit true |}
  | OFalse => Ok {| o_ty := TBool; o_src := BoolLit false |}
  end.
(** llvm.py:705-711 [load_operand] *)
Definition load_operand (s : lstate) (op : operand) : res obj :=
  match op with
  | OName x _ => match dget (ptrs s) x with Some o => Ok o | None => Err ExKey end
  | _ => Err ExValue
  end.
Definition is_ptr (op : operand) : bool := match op with OName _ p => p | _ => false end.
(** llvm.py:749-753 [read_or_load_operand] *)
Definition read_or_load_operand (s : lstate) (op : operand) : res obj :=
  if is_ptr op then load_operand s op else read_operand s op.
(** llvm.py:740-747 [read_or_load_var] *)
Definition read_or_load_var (s : lstate) (x : string) : res obj :=
  match dget (prims s) x with
  | Some o => Ok o
  | None => match dget (ptrs s) x with Some o => Ok o | None => Err ExKey end
  end.

(** ** The visitor *)

(** [fn_blocks_states], [primitive_var_types], [pointer_var_types] (861-912),
    [driver.postconditions], [pred_tracker.predicates], and the blocks whose state is
    marked [processed], in the order in which that happened.  [driver.var_tracker] is
    left out: it only collects the variables to be declared. *)
Record visitor : Type := {
  v_states : dict lstate; v_prim_types : dict ty; v_ptr_types : dict ty;
  v_post : list expr; v_preds : dict predicate; v_done : list string }.

Definition st (v : visitor) (b : string) : lstate :=
  match dget (v_states v) b with Some s => s | None => no_state end.
Definition set_st (v : visitor) (b : string) (s : lstate) : visitor :=
  {| v_states := dset (v_states v) b s; v_prim_types := v_prim_types v; v_ptr_types := v_ptr_types v;
     v_post := v_post v; v_preds := v_preds v; v_done := v_done v |}.
(** llvm.py:932-938, 955-963: writing also records the type *)
Definition set_prim (v : visitor) (b x : string) (o : obj) : visitor :=
  {| v_states := dset (v_states v) b (write_prim (st v b) x o);
     v_prim_types := dset (v_prim_types v) x (o_ty o); v_ptr_types := v_ptr_types v;
     v_post := v_post v; v_preds := v_preds v; v_done := v_done v |}.
Definition set_ptr (v : visitor) (b x : string) (o : obj) : visitor :=
  {| v_states := dset (v_states v) b (write_ptr (st v b) x o);
     v_prim_types := v_prim_types v; v_ptr_types := dset (v_ptr_types v) x (o_ty o);
     v_post := v_post v; v_preds := v_preds v; v_done := v_done v |}.
Definition set_post (v : visitor) (e : expr) : visitor :=
  {| v_states := v_states v; v_prim_types := v_prim_types v; v_ptr_types := v_ptr_types v;
     v_post := v_post v ++ [e]; v_preds := v_preds v; v_done := v_done v |}.
Definition set_pred (v : visitor) (x : string) (p : predicate) : visitor :=
  {| v_states := v_states v; v_prim_types := v_prim_types v; v_ptr_types := v_ptr_types v;
     v_post := v_post v; v_preds := dset (v_preds v) x p; v_done := v_done v |}.
Definition set_done (v : visitor) (b : string) : visitor :=
  {| v_states := v_states v; v_prim_types := v_prim_types v; v_ptr_types := v_ptr_types v;
     v_post := v_post v; v_preds := v_preds v; v_done := v_done v ++ [b] |}.

(** llvm.py:955-974 [get_var_type] *)
Definition get_var_type (v : visitor) (x : string) : res ty :=
  match dget (v_prim_types v) x with
  | Some t => Ok t
  | None => match dget (v_ptr_types v) x with Some t => Ok t | None => Err ExValue end
  end.

(** ir.py:839-840, 864-865, 939-940, 1098-1099, 1357-1359, 1578-1580, 1625-1627,
    1732-1734: [default_value]; the other types are left out *)
Definition default_value (t : ty) : res obj :=
  match t with
  | TInt => Ok (int_lit 0)
  | TBool => Ok {| o_ty := TBool; o_src := BoolLit false |}
  | TList _ => list_empty TInt
  | TMatrix _ => matrix_empty TInt
  | TTensor3D _ => tensor3d_empty TInt
  | TSet _ => Ok (var_obj (TSet TInt) "v")
  | TTuple _ => Ok (var_obj (TTuple [TInt; TInt]) "v")
  | _ => Err ExNYI
  end.

(** frontend/utils.py:44-52 on objects *)
Definition objs_plus (a b : list obj) : list obj := objs_init_from [] (objs_init_from [] a ++ objs_init_from [] b).

Section Visitor.
(** [fn_name], [fn_ret_type], [fn_args] (sorted by name, llvm.py:1707),
    [fn_sret_arg], [uninterp_fns], [loops], and from [inv_grammars] the names in
    scope and the overriding arguments (llvm.py:647-660); a missing entry stands for
    no grammar *)
Variables (fn_name : string) (ret_type : ty) (fn_args : list obj) (sret : option obj)
          (uninterp : list string) (loops : list loop_info) (grammars : dict (list string * list obj)).

(** llvm.py:764-795 [Predicate.call]; the grammar is called only for its side
    effects *)
Definition lpred_call (p : predicate) (s : lstate) : res expr :=
  os <- mapR (fun v => x <- var_name v ;; read_or_load_var s x) (p_args p) ;;
  o <- call (p_name p) TBool os ;; Ok (o_src o).

(** llvm.py:1300-1343: the object for an arithmetic instruction *)
Definition bin_obj (op : string) (l r : obj) : res obj :=
  if negb (ty_eqb (o_ty l) TInt) || negb (ty_eqb (o_ty r) TInt) then Err ExTypes
  else if String.eqb op "add" then int_op KAdd l r
  else if String.eqb op "sub" then int_op KSub l r
  else if String.eqb op "mul" then int_op KMul l r
  else if String.eqb op "sdiv" then int_op KDiv l r
  else if String.eqb op "srem" then int_op KMod l r
  else Err ExNYI.

(** llvm.py:1359-1384: the object for a comparison.  Simplification: integers
    only. *)
Definition cmp_obj (cond : string) (l r : obj) : res obj :=
  if negb (ty_eqb (o_ty l) TInt) || negb (ty_eqb (o_ty r) TInt) then Err ExTypes
  else if String.eqb cond "eq" then int_eq l r
  else if String.eqb cond "ne" then
    e <- int_eq l r ;; n <- mkNot [o_src e] ;; Ok {| o_ty := TBool; o_src := n |}
  else if String.eqb cond "sgt" then int_cmp KGt l r
  else if String.eqb cond "sle" then int_cmp KLe l r
  else if String.eqb cond "slt" || String.eqb cond "ult" then int_cmp KLt l r
  else if String.eqb cond "sge" then int_cmp KGe l r
  else Err ExNYI.

(** llvm.py:757-761 [get_var_location] *)
Definition set_where (v : visitor) (b x : string) (o : obj) : res visitor :=
  if dmem (prims (st v b)) x then Ok (set_prim v b x o)
  else if dmem (ptrs (st v b)) x then Ok (set_ptr v b x o)
  else Err ExValue.
(** llvm.py:723-727 [write_or_store_operand] (does not record the type); nothing is
    written when the instruction has no name (1467) *)
Definition write_result (v : visitor) (b x : string) (ptr : bool) (o : obj) : visitor :=
  if String.eqb x "" then v
  else set_st v b (if ptr then write_ptr (st v b) x o else write_prim (st v b) x o).

(** the functions in [fn_models] (llvm.py:384-409) other than the ones on lists and
    [size], [push_back], [operator[]] *)
Definition other_models : list string :=
  ["vector"; "getField"; "setField"; "set_create"; "set_add"; "set_remove"; "set_contains";
   "MakeTuple"; "tupleGet"; "integer_sqrt"; "integer_exp"].
(** llvm.py:177-206 [new_vector]: the empty list, matrix or tensor; which of them is
    read off the demangled name, here [t] *)
Definition new_vector (t : ty) : res obj :=
  match t with
  | TList TInt => list_empty TInt
  | TMatrix TInt => matrix_empty TInt
  | TTensor3D TInt => tensor3d_empty TInt
  | _ => Err ExValue
  end.
(** llvm.py:62-93 [set_create] to [set_remove] with ir.py:1629-1646, 1672-1674;
    305-332 [make_tuple], [tuple_get]; 359-383 [integer_sqrt], [integer_exp]: what the
    calls return.  [set_contains] (94-104) uses [in], which turns the object it gets
    into Python's [True].  Simplification: that has no type and no expression, and
    raises here rather than at its first use.  [get_field] and [set_field] (335-356)
    look for their object in the empty dictionary that [visit_call_instruction]
    passes, and raise. *)
Definition other_call (s : lstate) (f : string) (args : list operand) : res obj :=
  if String.eqb f "set_create" then
    e <- mkCall (Atom (PStr "set-create")) (TSet TInt) [] ;; create_object (TSet TInt) e
  else if String.eqb f "set_add" then
    match args with
    | [a; e] => l <- read_or_load_operand s a ;; y <- read_or_load_operand s e ;;
                match o_ty l with
                | TSet c => if ty_eqb (o_ty y) c then call "set-insert" (TSet c) [y; l] else Err ExTypes
                | _ => Err ExAttr
                end
    | _ => Err ExValue
    end
  else if String.eqb f "set_remove" then
    match args with
    | [a; e] => l <- read_or_load_operand s a ;; y <- read_or_load_operand s e ;;
                match o_ty l with
                | TSet c => if ty_eqb (o_ty y) c then
                              d <- call "set-singleton" (TSet c) [y] ;; call "set-minus" (TSet c) [l; d]
                            else Err ExTypes
                | _ => Err ExAttr
                end
    | _ => Err ExValue
    end
  else if String.eqb f "MakeTuple" then
    os <- mapR (read_or_load_operand s) args ;; call "make-tuple" (TTuple (map (fun _ => TInt) args)) os
  else if String.eqb f "tupleGet" then
    match args with
    | a :: i :: _ => l <- read_or_load_operand s a ;; j <- read_or_load_operand s i ;; call "tupleGet" TInt [l; j]
    | _ => Err ExIndex
    end
  else if String.eqb f "integer_sqrt" || String.eqb f "integer_exp" then
    match args with
    | [a] => o <- read_or_load_operand s a ;; call f TInt [o]
    | _ => Err ExValue
    end
  else Err ExTypes.

(** llvm.py:1451-1490 [visit_call_instruction] with the models at 107-174 (lists)
    and 177-292 ([vector], [push_back], [size], [operator[]]).  A function that is
    neither modelled nor uninterpreted is skipped.  Simplification: [size] also
    changes [containedT] of its argument, depending on the mangled name. *)
Definition visit_call (v : visitor) (b x : string) (ptr : bool) (f : string) (args : list operand) (t : ty)
  : res visitor :=
  let s := st v b in
  if String.eqb f "newList" then
    match args with [] => o <- list_empty TInt ;; Ok (write_result v b x ptr o) | _ => Err ExValue end
  else if String.eqb f "listLength" || String.eqb f "size" then
    match args with
    | [a] => l <- read_or_load_operand s a ;;
             if is_list_type (o_ty l) then o <- o_len l ;; Ok (write_result v b x ptr o) else Err ExAttr
    | _ => Err ExValue
    end
  else if String.eqb f "listAppend" then
    match args with
    | [a; e] => l <- read_or_load_operand s a ;; y <- read_or_load_operand s e ;;
                o <- append l y ;; Ok (write_result v b x ptr o)
    | _ => Err ExValue
    end
  else if String.eqb f "listGet" then
    match args with
    | [a; i] => l <- read_or_load_operand s a ;; j <- read_or_load_operand s i ;;
                o <- getitem l (IxObj j) ;; Ok (write_result v b x ptr o)
    | _ => Err ExValue
    end
  else if String.eqb f "operator[]" then
    match args with
    | [OName a p; i] => l <- read_or_load_operand s (OName a p) ;; j <- read_or_load_operand s i ;;
                o <- getitem l (IxObj j) ;; set_where (write_result v b x ptr o) b a l
    | _ => Err ExValue
    end
  else if String.eqb f "push_back" then
    match args with
    | [OName a p; e] =>
        l <- read_or_load_operand s (OName a p) ;; y <- read_or_load_operand s e ;;
        if is_list_type (o_ty l) then
          o <- call (shape_name (o_ty l) "matrix_append" "tensor3d_append" "list_append") t [l; y] ;;
          set_where v b a o
        else Err ExAttr
    | _ => Err ExValue
    end
  else if String.eqb f "vector" then
    match args with
    | [OName a p] => o <- new_vector t ;; set_where v b a o
    | _ => Err ExValue
    end
  else if smem f other_models then o <- other_call s f args ;; Ok (write_result v b x ptr o)
  else if smem f uninterp || smem f ["integer-sqrt-noerr"; "integer-exp-noerr"] then
    os <- mapR (read_or_load_operand s) args ;;
    o <- call f t os ;;
    Ok (set_st v b (if ptr then write_ptr s x o else write_prim s x o))
  else Ok v.

(** llvm.py:1400-1449 [visit_ret_instruction] *)
Definition visit_ret (v : visitor) (b : string) (op : option operand) : res visitor :=
  let s := st v b in
  rv <- match op, sret with
        | None, Some o =>
            x <- var_name o ;; 
            match dget (ptrs s) x with
            | Some c => Ok {| o_ty := o_ty c; o_src := mkVar x (o_ty c) |}
            | None => Err ExKey
            end
        | Some op, _ => read_or_load_operand s op
        | None, None => Err ExValue
        end ;;
  let arg := var_obj (o_ty rv) (fn_name ++ "_rv")%string in
  let v := match dget (v_preds v) fn_name with
           | Some _ => v
           | None => set_pred v fn_name
               {| p_args := fn_args ++ [arg]; p_writes := [arg]; p_reads := fn_args; p_scope := [];
                  p_name := (fn_name ++ "_ps")%string |}
           end in
  match dget (v_preds v) fn_name with
  | None => Err ExKey
  | Some p =>
      ps <- call (p_name p) TBool (fn_args ++ [rv]) ;;
      a <- match l_precond s with
           | [] => Ok (o_src ps)
           | pc => c <- and_objects pc ;; i <- mkImplies [c; o_src ps] ;; mkBoolObj i
           end ;;
      Ok (set_post (set_st v b (l_assert s a)) (o_src ps))
  end.

(** llvm.py:1038-1071 [visit_instruction] in block [b] *)
Definition visit_instr (b : string) (i : instr) (v : visitor) : res visitor :=
  let s := st v b in
  match i with
  (* 1270-1280 *)
  | IAlloca x t => o <- default_value t ;; Ok (set_ptr v b x o)
  (* 1282-1289 *)
  | ILoad x ptr src =>
      o <- load_operand s src ;; Ok (if ptr then set_ptr v b x o else set_prim v b x o)
  (* 1291-1298 *)
  | IStore val dst =>
      o <- read_or_load_operand s val ;;
      match dst with OName x _ => Ok (set_ptr v b x o) | _ => Err ExValue end
  (* 1300-1343 *)
  | IBin op x l r =>
      lo <- read_operand s l ;; ro <- read_operand s r ;; o <- bin_obj op lo ro ;; Ok (set_prim v b x o)
  (* 1359-1384 *)
  | ICmp cond x l r =>
      lo <- read_operand s l ;; ro <- read_operand s r ;; o <- cmp_obj cond lo ro ;; Ok (set_prim v b x o)
  (* 1345-1357, 1492-1495 *)
  | IConv op x a =>
      if String.eqb op "bitcast" && is_ptr a then o <- load_operand s a ;; Ok (set_ptr v b x o)
      else o <- read_operand s a ;; Ok (set_prim v b x o)
  | ICall x ptr f args t => visit_call v b x ptr f args t
  (* 1386-1398 *)
  | IBr _ => Ok v
  | ICondBr c t f =>
      o <- read_operand s c ;;
      if negb (ty_eqb (o_ty o) TBool) then Err ExTypes else
      n <- mkNot [o_src o] ;;
      let v := set_st v t (with_precond (st v t) (l_precond (st v t) ++ [o_src o])) in
      Ok (set_st v f (with_precond (st v f) (l_precond (st v f) ++ [n])))
  | IRet op => visit_ret v b op
  | IOther => Err ExNYI
  end.

(** ** Merging *)

(** llvm.py:1093-1118: for each variable its distinct values, each with the
    preconditions of the predecessors that have it *)
Definition values : Type := list (expr * list (list expr)).
Fixpoint add_value (e : expr) (pc : list expr) (vs : values) : values :=
  match vs with
  | [] => [(e, [pc])]
  | (e', pcs) :: r => if expr_eqb e' e then (e', pcs ++ [pc]) :: r else (e', pcs) :: add_value e pc r
  end.
Definition gather_vars (pc : list expr) (d : dict obj) (acc : dict values) : dict values :=
  fold_left (fun acc p =>
    dset acc (fst p) (add_value (o_src (snd p)) pc (match dget acc (fst p) with Some vs => vs | None => [] end)))
    d acc.
Definition gather (sel : lstate -> dict obj) (ss : list lstate) : dict values :=
  fold_left (fun acc s => gather_vars (l_precond s) (sel s) acc) ss [].

(** llvm.py:1130-1150: the condition for one value *)
Definition nonempty (l : list expr) : bool := match l with [] => false | _ => true end.
Definition value_cond (pcs : list (list expr)) : res expr :=
  cs <- mapR and_objects (filter nonempty pcs) ;;
  match cs with [] => Ok (BoolLit true) | _ => or_objects cs end.
(** llvm.py:1152-1165 *)
Fixpoint merge_values (acc : expr) (vs : list (expr * expr)) : res expr :=
  match vs with
  | [] => Ok acc
  | (e, c) :: r => acc' <- mkIte [c; e; acc] ;; merge_values acc' r
  end.
(** llvm.py:1124-1169 *)
Definition merge_var (vs : values) : res obj :=
  e <- match vs with
       | [] => Err ExValue
       | [(e, _)] => Ok e
       | _ =>
           cs <- mapR (fun p => c <- value_cond (snd p) ;; Ok (fst p, c)) vs ;;
           match cs with (e, _) :: r => merge_values e r | [] => Err ExValue end
       end ;;
  t <- type_of e ;; create_object t e.
Definition merge_dict (sel : lstate -> dict obj) (ss : list lstate) : res (dict obj) :=
  mapR (fun p => o <- merge_var (snd p) ;; Ok (fst p, o)) (gather sel ss).

(** llvm.py:1073-1170 [merge_states] *)
Definition merge_states (v : visitor) (b : block) : res visitor :=
  let s := st v (b_name b) in
  match b_preds b with
  | [] => Ok v
  | [p] =>
      let ps := st v p in
      Ok (set_st v (b_name b)
        {| l_precond := l_precond s ++ l_precond ps; prims := prims ps; ptrs := ptrs ps; l_asserts := l_asserts s |})
  | preds =>
      let ss := map (st v) preds in
      cs <- mapR and_objects (filter nonempty (map l_precond ss)) ;;
      pc <- match cs with [] => Ok (l_precond s) | _ => c <- or_objects cs ;; Ok [c] end ;;
      d1 <- merge_dict prims ss ;;
      d2 <- merge_dict ptrs ss ;;
      Ok (set_st v (b_name b) {| l_precond := pc; prims := d1; ptrs := d2; l_asserts := l_asserts s |})
  end.

(** ir.py:90-91 [is_pointer_type] *)
Definition is_pointer_type (t : ty) : bool := negb (is_primitive_type t).
(** llvm.py:1020-1036 [preprocess] *)
Definition preprocess (v : visitor) (b : string) : res visitor :=
  let v := set_st v b (with_precond (st v b) (l_precond (st v b) ++ v_post v)) in
  let put := fun v o => x <- var_name o ;;
               Ok (if is_pointer_type (o_ty o) then set_ptr v b x o else set_prim v b x o) in
  v <- (fix go (os : list obj) (v : visitor) : res visitor :=
          match os with [] => Ok v | o :: r => v' <- put v o ;; go r v' end)
         (fn_args ++ [var_obj ret_type (fn_name ++ "_rv")%string]) v ;;
  match sret with
  | None => Ok v
  | Some o => x <- var_name o ;; Ok (set_ptr v b x o)
  end.

(** ** Loops *)

(** llvm.py:1000-1017 [get_havocs], as a set of names in order *)
Definition get_havocs (v : visitor) (lo : loop_info) : res (list obj) :=
  mapR (fun x => t <- get_var_type v x ;; Ok (var_obj t x)) (sorted_set (lo_havocs lo)).

Definition inv_name (n : nat) : string := (fn_name ++ "_inv" ++ string_of_nat n)%string.

(** llvm.py:1195-1217, 1237-1259: the invariant of loop [n], created from the state
    of a block; 825-848 [PredicateTracker.invariant] *)
Definition loop_inv (v : visitor) (s : lstate) (n : nat) (havocs : list obj) : res (visitor * predicate) :=
  let scope := map (fun p => var_obj (o_ty (snd p)) (fst p)) (prims s ++ ptrs s) in
  let g := dget grammars (inv_name n) in
  let scope := match g with
               | Some (names, _) => filter (fun o => match var_name o with Ok x => smem x names | Err _ => false end) scope
               | None => scope
               end in
  args0 <- sort_objs (objs_plus havocs fn_args) ;;
  let args := match g with Some (_, o :: os) => o :: os | _ => args0 end in
  match dget (v_preds v) (inv_name n) with
  | Some p => Ok (v, p)
  | None =>
      rest <- sort_objs (objs_sub scope args) ;;
      let p := {| p_args := args ++ rest; p_writes := havocs; p_reads := fn_args; p_scope := scope;
                  p_name := inv_name n |} in
      Ok (set_pred v (inv_name n) p, p)
  end.

(** the loops with their position in [self.loops] *)
Definition numbered : list (nat * loop_info) := combine (seq 0 (length loops)) loops.

(** llvm.py:1180-1220: at the header of a loop *)
Definition enter_loop (b : string) (p : nat * loop_info) (v : visitor) : res visitor :=
  hv <- get_havocs v (snd p) ;;
  v <- (fix go (os : list obj) (v : visitor) : res visitor :=
          match os with
          | [] => Ok v
          | o :: r => x <- var_name o ;; go r (set_ptr v b x o)
          end) hv v ;;
  vi <- loop_inv v (st v b) (fst p) hv ;;
  let v := fst vi in
  i <- lpred_call (snd vi) (st v b) ;;
  Ok (set_st v b (with_precond (st v b) (l_precond (st v b) ++ [i]))).

(** llvm.py:1226-1263: before the header and at the latch *)
Definition assert_inv (b : string) (p : nat * loop_info) (v : visitor) : res visitor :=
  hv <- get_havocs v (snd p) ;;
  vi <- loop_inv v (st v b) (fst p) hv ;;
  let v := fst vi in
  let s := st v b in
  i <- lpred_call (snd vi) s ;;
  a <- match l_precond s with
       | [] => Ok i
       | pc => c <- and_objects pc ;; i' <- mkImplies [c; i] ;; mkBoolObj i'
       end ;;
  Ok (set_st v b (l_assert s a)).

(** the blocks as they are after the back edges were removed *)
Variable blocks : list block.

(** llvm.py:976-998 *)
Definition header_loops (b : string) : list (nat * loop_info) :=
  filter (fun p => String.eqb b (lo_header (snd p))) numbered.
Definition header_pred_loops (b : string) : list (nat * loop_info) :=
  filter (fun p => match find_block blocks (lo_header (snd p)) with
                   | Some h => smem b (b_preds h) | None => false end) numbered.
Definition latch_loops (b : string) : list (nat * loop_info) :=
  filter (fun p => smem b (lo_latches (snd p))) numbered.

(** llvm.py:1172-1263 [visit_llvm_block] *)
Definition visit_block (b : block) (v : visitor) : res visitor :=
  let n := b_name b in
  v <- match b_preds b with [] => preprocess v n | _ => merge_states v b end ;;
  v <- runS (enter_loop n) (header_loops n) v ;;
  v <- runS (visit_instr n) (b_instrs b) v ;;
  let v := set_done v n in
  runS (assert_inv n) (header_pred_loops n ++ latch_loops n) v.

(** llvm.py:1729-1737: one pass over the blocks *)
Definition ready (v : visitor) (b : block) : bool :=
  negb (smem (b_name b) (v_done v)) && forallb (fun p => smem p (v_done v)) (b_preds b).
Definition one_pass (v : visitor) : res visitor :=
  runS (fun b v => if ready v b then visit_block b v else Ok v) blocks v.
(** llvm.py:1726-1737: repeat until nothing was visited *)
Fixpoint passes (fuel : nat) (v : visitor) : res visitor :=
  match fuel with
  | O => Err ExFuel
  | S fuel =>
      v' <- one_pass v ;;
      if Nat.eqb (length (v_done v')) (length (v_done v)) then Ok v' else passes fuel v'
  end.

(** llvm.py:1752-1753 *)
Definition all_asserts (v : visitor) : list expr := flat_map (fun b => l_asserts (st v (b_name b))) blocks.
End Visitor.

(** ** A function analysed on its own *)

Record lfunc : Type := {
  lf_name : string; lf_args : list obj; lf_ret : ty; lf_sret : option obj;
  lf_blocks : list (string * list instr); lf_loops : list raw_loop }.

(** llvm.py:1498-1514 [Driver.__init__] with preconditions that were added with
    [add_precondition] (1630-1632) *)
Definition new_visitor (pre : list expr) : visitor :=
  {| v_states := []; v_prim_types := []; v_ptr_types := []; v_post := pre; v_preds := []; v_done := [] |}.

(** llvm.py:1652-1762 [MetaliftFunc.__init__] and [__call__] *)
Definition analyze_func (uninterp : list string) (grammars : dict (list string * list obj)) (pre : list expr)
           (f : lfunc) : res (list block * list loop_info * visitor) :=
  bs <- setup_blocks (lf_blocks f) ;;
  p <- loops_of bs (lf_loops f) ;;
  args <- sort_objs (lf_args f) ;;
  v <- passes (lf_name f) (lf_ret f) args (lf_sret f) uninterp (snd p) grammars (fst p)
         (S (length (fst p))) (new_visitor pre) ;;
  Ok (fst p, snd p, v).
(** llvm.py:1584-1586: the verification condition *)
Definition lfunc_vc (uninterp : list string) (grammars : dict (list string * list obj)) (pre : list expr)
           (f : lfunc) : res expr :=
  r <- analyze_func uninterp grammars pre f ;;
  and_objects (all_asserts (fst (fst r)) (snd r)).
