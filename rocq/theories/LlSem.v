(** What LLVM functions compute, and the functions the soundness theorem for the
    LLVM frontend speaks about.  This is a reference semantics written independently
    of the frontend; it is not a model of code in /repo. *)

From Coq Require Import String List ZArith Bool.
From Verif Require Import Ast Semantics Dict ObjModel PyModel PySem LlModel.
Import ListNotations.
Local Open Scope Z_scope.
Local Open Scope string_scope.
Local Open Scope list_scope.

(** ** 32-bit integers *)

Definition in32 (z : Z) : bool := (-2147483648 <=? z)%Z && (z <? 2147483648)%Z.
Definition wrap32 (z : Z) : Z := (z + 2147483648) mod 4294967296 - 2147483648.
Definition unsigned (z : Z) : Z := z mod 4294967296.

(** the arithmetic instructions of LLVM on i32; [None]: undefined behaviour *)
Definition bin32 (op : string) (x y : Z) : option Z :=
  if op =? "add" then Some (wrap32 (x + y))
  else if op =? "sub" then Some (wrap32 (x - y))
  else if op =? "mul" then Some (wrap32 (x * y))
  else if (op =? "sdiv") || (op =? "srem") then
    if (y =? 0)%Z || ((x =? -2147483648)%Z && (y =? -1)%Z) then None
    else Some (if op =? "sdiv" then Z.quot x y else Z.rem x y)
  else None.
Definition cmp32 (cond : string) (x y : Z) : option bool :=
  if cond =? "eq" then Some (x =? y)%Z
  else if cond =? "ne" then Some (negb (x =? y)%Z)
  else if cond =? "sgt" then Some (y <? x)%Z
  else if cond =? "sge" then Some (y <=? x)%Z
  else if cond =? "slt" then Some (x <? y)%Z
  else if cond =? "sle" then Some (x <=? y)%Z
  else if cond =? "ult" then Some (unsigned x <? unsigned y)%Z
  else if cond =? "ule" then Some (unsigned x <=? unsigned y)%Z
  else if cond =? "ugt" then Some (unsigned y <? unsigned x)%Z
  else if cond =? "uge" then Some (unsigned y <=? unsigned x)%Z
  else None.

(** where unbounded integers give the same: nothing overflows, [sdiv] and [srem] are
    used on non-negative numbers, unsigned comparisons too *)
Definition agrees_bin (op : string) (x y : Z) : bool :=
  if op =? "add" then in32 (x + y)
  else if op =? "sub" then in32 (x - y)
  else if op =? "mul" then in32 (x * y)
  else (0 <=? x)%Z && (0 <? y)%Z.
Definition agrees_cmp (cond : string) (x y : Z) : bool :=
  if smem cond ["ult"; "ule"; "ugt"; "uge"] then (0 <=? x)%Z && in32 x && (0 <=? y)%Z && in32 y else true.

(** ** Execution *)

(** Registers with a primitive value, registers of pointer type with what they point
    to, and the registers that point to a cell of their own (from [alloca]).  Lists
    are values; only cells are written. *)
Record lstore : Type := {
  sp : string -> option val; sm : string -> option val; cells : string -> bool }.
Definition put {A} (f : string -> A) (x : string) (a : A) : string -> A := fun y => if x =? y then a else f y.
Definition putp (s : lstore) (x : string) (v : val) : lstore :=
  {| sp := put (sp s) x (Some v); sm := sm s; cells := cells s |}.
Definition putm (s : lstore) (x : string) (v : option val) : lstore :=
  {| sp := sp s; sm := put (sm s) x v; cells := cells s |}.
Definition putr (s : lstore) (ptr : bool) (x : string) (v : val) : lstore :=
  if ptr then putm s x (Some v) else putp s x v.

Definition getv (s : lstore) (o : operand) : option val :=
  match o with
  | OName x true => sm s x
  | OName x false => sp s x
  | OInt z => Some (VInt z)
  | OTrue => Some (VBool true)
  | OFalse => Some (VBool false)
  end.

(** [Done]: [ret void] *)
Inductive lout : Type := Next (s : lstore) | Jump (t : string) (s : lstore) | Return (v : val) | Done (s : lstore).

Definition is_address (o : operand) : bool := match o with OName _ true => true | _ => false end.

Section Sem.
(** the uninterpreted functions *)
Variable U : string -> list val -> option val.

(** the result of a call *)
Definition call_val (f : string) (vs : list val) : option val :=
  if f =? "newList" then match vs with [] => Some (VList []) | _ => None end
  else if (f =? "listLength") || (f =? "size") then
    match vs with [VList l] => Some (VInt (Z.of_nat (length l))) | _ => None end
  else if f =? "listAppend" then match vs with [VList l; v] => Some (VList (l ++ [v])) | _ => None end
  else if (f =? "listGet") || (f =? "operator[]") then
    match vs with
    | [VList l; VInt i] => if (i <? 0)%Z then None else nth_error l (Z.to_nat i)
    | _ => None
    end
  else U f vs.

(** One instruction.  [None]: undefined behaviour, or something this semantics does
    not speak about: overflow and the other cases of [agrees_bin] and [agrees_cmp],
    addresses of cells that are copied or written through another register, functions
    other than the ones of [call_val], [push_back], [clear], and the constructor and
    destructor of vectors.  After a [bitcast] nothing is known about what the pointer points to. *)
Definition lstep (s : lstore) (i : instr) : option lout :=
  match i with
  | IAlloca x _ =>
      Some (Next {| sp := sp s; sm := put (sm s) x None; cells := put (cells s) x true |})
  | ILoad x ptr (OName y true) =>
      match sm s y with Some v => Some (Next (putr s ptr x v)) | None => None end
  | IStore v (OName y true) =>
      if cells s y && negb (match v with OName z true => cells s z | _ => false end) then
        match getv s v with
        | Some w => Some (Next (putm s y (Some w)))
        | None => if is_address v then Some (Next (putm s y None)) else None
        end
      else None
  | IBin op x a b =>
      match getv s a, getv s b with
      | Some (VInt n), Some (VInt m) =>
          if agrees_bin op n m then
            match bin32 op n m with Some z => Some (Next (putp s x (VInt z))) | None => None end
          else None
      | _, _ => None
      end
  | ICmp cond x a b =>
      match getv s a, getv s b with
      | Some (VInt n), Some (VInt m) =>
          if agrees_cmp cond n m then
            match cmp32 cond n m with Some c => Some (Next (putp s x (VBool c))) | None => None end
          else None
      | _, _ => None
      end
  | IConv op x a =>
      if is_address a then
        if op =? "bitcast" then
          Some (Next {| sp := sp s; sm := put (sm s) x None; cells := put (cells s) x false |})
        else None
      else
      match getv s a with
      | Some (VInt z) =>
          if in32 z && negb (is_ptr a) && smem op ["bitcast"; "sext"; "trunc"]
          then Some (Next (putp s x (VInt z))) else None
      | _ => None
      end
  | ICall x ptr f args _ =>
      if f =? "push_back" then
        match args with
        | [OName a true; e] =>
            match cells s a, sm s a, getv s e with
            | true, Some (VList l), Some v => Some (Next (putm s a (Some (VList (l ++ [v])))))
            | _, _, _ => None
            end
        | _ => None
        end
      else if (f =? "vector") || (f =? "~vector") || (f =? "clear") then
        match args with
        | [OName a true] =>
            if cells s a then Some (Next (putm s a (if f =? "~vector" then None else Some (VList [])))) else None
        | _ => None
        end
      else
        match mapO (getv s) args with
        | Some vs => match call_val f vs with Some v => Some (Next (putr s ptr x v)) | None => None end
        | None => None
        end
  | IBr t => Some (Jump t s)
  | ICondBr c t f =>
      match getv s c with Some (VBool b) => Some (Jump (if b then t else f) s) | _ => None end
  | IRet (Some o) => match getv s o with Some v => Some (Return v) | None => None end
  | IRet None => Some (Done s)
  | _ => None
  end.
Fixpoint lsteps (s : lstore) (is : list instr) : option lout :=
  match is with
  | [] => None
  | i :: r => match lstep s i with Some (Next s') => lsteps s' r | o => o end
  end.

(** running from the start of block [b], at most [n] blocks; [ret void] returns what is
    in the cell that the caller passed for the result, if there is one *)
Fixpoint lrun (res : option string) (blks : list (string * list instr)) (n : nat) (b : string) (s : lstore) : option val :=
  match n with
  | O => None
  | S n =>
      match dget blks b with
      | None => None
      | Some is =>
          match lsteps s is with
          | Some (Jump t s') => lrun res blks n t s'
          | Some (Return v) => Some v
          | Some (Done s') => match res with Some x => sm s' x | None => None end
          | _ => None
          end
      end
  end.

(** the cell for the result (LLVM's [sret] argument); it is not initialised *)
Definition sret_name (f : lfunc) : option string :=
  match lf_sret f with
  | Some o => match var_name o with Ok x => Some x | Err _ => None end
  | None => None
  end.
(** the arguments have the values that [a] gives them *)
Definition arg_names (f : lfunc) (ptr : bool) : list string :=
  flat_map (fun o => match var_name o with
                     | Ok x => if Bool.eqb (is_pointer_type (o_ty o)) ptr then [x] else []
                     | Err _ => [] end) (lf_args f).
Definition start_store (f : lfunc) (a : env) : lstore :=
  {| sp := fun x => if smem x (arg_names f false) then a x else None;
     sm := fun x => if smem x (arg_names f true) then a x else None;
     cells := fun x => match sret_name f with Some y => y =? x | None => false end |}.

Definition entry_of (f : lfunc) : string := match lf_blocks f with (b, _) :: _ => b | [] => "" end.
Definition lreturns (f : lfunc) (a : env) (v : val) : Prop :=
  exists n, lrun (sret_name f) (lf_blocks f) n (entry_of f) (start_store f a) = Some v.
End Sem.

(** the library functions of the IR mean what they should *)
Record llibrary (I : interp) : Prop := {
  ll_lib : library I;
  ll_mappend : forall l v, i_call I "matrix_append" [VList l; v] = Some (VList (l ++ [v]));
  ll_mod : forall x y, 0 < y -> i_mod I x y = Some (x mod y);
  ll_mod_total : forall x y, exists z, i_mod I x y = Some z }.

(** ** The functions the soundness theorem speaks about *)

Definition name : Type := (bool * string)%type.   (* [true]: of pointer type *)
Definition name_eqb (a b : name) : bool := Bool.eqb (fst a) (fst b) && (snd a =? snd b).
Definition nmem (a : name) (l : list name) : bool := existsb (name_eqb a) l.

(** types of the registers, for each block registers that have a value whenever the
    block is reached, the blocks that are reached from the entry by unconditional
    jumps only, and the blocks in an order in which all jumps apart from the back
    edges go forward.  [a_loose]: registers that hold lists of integers and that the
    frontend may take for lists of lists, as it does with every C++ vector (ir.py:645).
    [a_junk]: pointers that are written and never read.  [a_lits]: Boolean registers that
    may hold a constant.  (Python takes [True] for 1, and so do the frontend's
    comparisons of expressions.)  [a_result]: blocks where the
    cell for the result still is what it was at the header of a loop that writes it.
    [a_clean]: for a loop in a loop (or around one), blocks that come before it, with
    registers whose values do not depend on what the loop writes. *)
Record annot : Type := {
  a_prim : dict ty; a_ptr : dict ty; a_avail : dict (list name); a_bare : list string;
  a_order : list string; a_loose : list string; a_junk : list string; a_lits : list string; a_result : list string;
  a_clean : dict (dict (list name)) }.

(** functions that the frontend knows and that are left uninterpreted here *)
Definition maths : list string := ["integer_sqrt"; "integer_exp"].

Section Class.
Variables (an : annot) (uninterp : list string) (sret : option string).

Definition is_sret (x : string) : bool := match sret with Some y => x =? y | None => false end.
Definition junk (n : name) : bool := fst n && smem (snd n) (a_junk an).
Definition loose (n : name) : bool := fst n && smem (snd n) (a_loose an).
Definition reg_ty (n : name) : option ty :=
  if junk n then None else dget (if fst n then a_ptr an else a_prim an) (snd n).
(** the type the frontend gives to the content of a register *)
Definition label_ok (n : name) (u : ty) : bool :=
  match reg_ty n with
  | Some t => ty_eqb t u || (loose n && ty_eqb t (TList TInt) && ty_eqb u (TList (TList TInt)))
  | None => false
  end.
Definition lit (n : name) : bool :=
  match reg_ty n with Some TBool => smem (snd n) (a_lits an) | _ => false end.
Definition lit_operand (o : operand) : bool :=
  match o with OName x p => lit (p, x) | OInt _ => false | OTrue | OFalse => true end.
Definition avail (b : string) : list name := match dget (a_avail an) b with Some l => l | None => [] end.

Definition opty (X : list name) (o : operand) : option ty :=
  match o with
  | OName x ptr => if nmem (ptr, x) X then reg_ty (ptr, x) else None
  | OInt _ => Some TInt
  | OTrue | OFalse => Some TBool
  end.
(** an operand that the frontend takes for what it is, and that does not give away the
    cell for the result *)
Definition clear (o : operand) : bool :=
  match o with OName x p => negb (loose (p, x)) && negb (p && is_sret x) | _ => true end.
Definition is_ty (t : option ty) (t' : ty) : bool := match t with Some u => ty_eqb u t' | None => false end.

(** the type of the result of a call *)
Definition call_ty (f : string) (ts : list ty) (t : ty) : option ty :=
  if f =? "newList" then match ts with [] => Some (TList TInt) | _ => None end
  else if (f =? "listLength") || (f =? "size") then match ts with [TList TInt] => Some TInt | _ => None end
  else if f =? "listAppend" then match ts with [TList TInt; TInt] => Some (TList TInt) | _ => None end
  else if (f =? "listGet") || (f =? "operator[]") then
    match ts with [TList TInt; TInt] => Some TInt | _ => None end
  else if smem f maths then match ts with [_] => Some TInt | _ => None end
  else if smem f uninterp && negb (smem f other_models) then
    match t with TInt => Some TInt | _ => None end
  else None.
Definition without (x : string) (X : list name) : list name := filter (fun n => negb (name_eqb n (true, x))) X.

(** A well-typed instruction that only reads registers in [X]; the registers that
    have a value afterwards. *)
Definition ok_instr (X : list name) (i : instr) : option (list name) :=
  match i with
  | IAlloca x t =>
      if match t with
         | TInt => junk (true, x) || is_ty (reg_ty (true, x)) TInt
         | TBool => junk (true, x) || lit (true, x)
         | TList _ => junk (true, x) || is_ty (reg_ty (true, x)) (TList TInt)
         | _ => false
         end
      then Some (without x X) else None
  | ILoad x ptr (OName y true) =>
      match opty X (OName y true) with
      | Some t => if is_ty (reg_ty (ptr, x)) t && clear (OName y true) && (negb (lit (true, y)) || lit (ptr, x)) then Some ((ptr, x) :: X) else None
      | None => None
      end
  | IStore v (OName y true) =>
      if junk (true, y) then Some (without y X)
      else match opty X v with
      | Some t => if is_ty (reg_ty (true, y)) t && clear v && (negb (lit_operand v) || lit (true, y)) then Some ((true, y) :: X) else None
      | None => None
      end
  | IBin op x a b =>
      if is_ty (opty X a) TInt && is_ty (opty X b) TInt && negb (is_ptr a) && negb (is_ptr b) &&
         smem op ["add"; "sub"; "mul"; "sdiv"; "srem"] && is_ty (reg_ty (false, x)) TInt
      then Some ((false, x) :: X) else None
  | ICmp cond x a b =>
      if is_ty (opty X a) TInt && is_ty (opty X b) TInt && negb (is_ptr a) && negb (is_ptr b) &&
         smem cond ["eq"; "ne"; "sgt"; "sle"; "slt"; "ult"; "sge"] && is_ty (reg_ty (false, x)) TBool
      then Some ((false, x) :: X) else None
  | IConv op x a =>
      if is_address a then if (op =? "bitcast") && junk (true, x) then Some (without x X) else None
      else if is_ty (opty X a) TInt && negb (is_ptr a) && is_ty (reg_ty (false, x)) TInt
      then Some ((false, x) :: X) else None
  | ICall x ptr f args t =>
      if f =? "push_back" then
        match args with
        | [OName a true; e] =>
            if is_ty (opty X (OName a true)) (TList TInt) && is_ty (opty X e) TInt && label_ok (true, a) t
            then Some X else None
        | _ => None
        end
      else if f =? "vector" then
        match args with
        | [OName a true] =>
            if is_ty (reg_ty (true, a)) (TList TInt) && ty_eqb t (TList TInt) then Some ((true, a) :: X) else None
        | _ => None
        end
      else if f =? "~vector" then
        match args with
        | [OName a true] => if negb (smem f uninterp) then Some (without a X) else None
        | _ => None
        end
      else if f =? "clear" then None
      else
        match mapO (opty X) args with
        | Some ts =>
            match call_ty f ts t with
            | Some u =>
                if is_ty (reg_ty (ptr, x)) u && negb (x =? "") && forallb (fun o => clear o && negb (lit_operand o)) args &&
                   (if f =? "operator[]" then match args with OName _ _ :: _ => true | _ => false end else true)
                then Some ((ptr, x) :: X) else None
            | None => None
            end
        | None => None
        end
  | _ => None
  end.

Definition ok_terminator (X : list name) (i : instr) : bool :=
  match i with
  | IBr _ => true
  | ICondBr (OName x false) _ _ => is_ty (opty X (OName x false)) TBool
  | IRet (Some o) => match opty X o with Some _ => negb (lit_operand o) | None => false end
  | IRet None => true
  | _ => false
  end.
Fixpoint ok_instrs (X : list name) (is : list instr) : option (list name) :=
  match is with
  | [] => None
  | [i] => if ok_terminator X i then Some X else None
  | i :: r => match ok_instr X i with Some X' => ok_instrs X' r | None => None end
  end.

(** the registers (and cells) an instruction writes *)
Definition defs1 (i : instr) : list name :=
  match i with
  | IAlloca x _ => [(true, x)]
  | ILoad x ptr _ => [(ptr, x)]
  | IStore _ (OName y _) => [(true, y)]
  | IBin _ x _ _ | ICmp _ x _ _ => [(false, x)]
  | IConv _ x a => [(is_address a, x)]
  | ICall x ptr f args _ =>
      if (f =? "push_back") || (f =? "vector") then match args with OName a _ :: _ => [(true, a)] | _ => [] end
      else if f =? "~vector" then []
      else [(ptr, x)]
  | _ => []
  end.
Definition defs (is : list instr) : list name := flat_map defs1 is.

Fixpoint nodupb (l : list string) : bool :=
  match l with [] => true | x :: r => negb (smem x r) && nodupb r end.

(** the registers that are set when the function starts *)
Definition arg_regs (f : lfunc) : list name :=
  map (pair true) (arg_names f true) ++ map (pair false) (arg_names f false).
Definition rv_reg (f : lfunc) : name := (is_pointer_type (lf_ret f), (lf_name f ++ "_rv")%string).

Definition simple_ty (t : ty) : bool := match t with TInt | TBool | TList TInt => true | _ => false end.
Definition ok_types (f : lfunc) : bool :=
  forallb (fun p => simple_ty (snd p)) (a_prim an ++ a_ptr an) &&
  forallb (fun x => negb (dmem (a_ptr an) x)) (dkeys (a_prim an)) &&
  forallb (fun o => match var_name o with
                    | Ok x => is_ty (reg_ty (is_pointer_type (o_ty o), x)) (o_ty o) && negb (smem x (a_lits an)) &&
                              match o_src o with Node KVar t _ => ty_eqb t (o_ty o) | _ => false end
                    | Err _ => false end) (lf_args f) &&
  forallb (fun x => negb (dmem (a_prim an) x)) (a_junk an) &&
  label_ok (rv_reg f) (lf_ret f) &&
  negb (nmem (rv_reg f) (arg_regs f)) &&
  match lf_sret f with
  | None => true
  | Some o =>
      match var_name o with
      | Ok x => is_ty (reg_ty (true, x)) (TList TInt) && label_ok (true, x) (o_ty o) &&
                match o_src o with Node KVar t _ => ty_eqb t (o_ty o) | _ => false end &&
                negb (nmem (true, x) (arg_regs f)) && negb (name_eqb (true, x) (rv_reg f))
      | Err _ => false
      end
  end.

Variables (f : lfunc) (bs : list block) (los : list loop_info) (has_pre : bool).

Definition is_header (b : string) : bool := existsb (fun lo => b =? lo_header lo) los.

(** the only target of a conditional branch on a constant that has just been stored,
    which is how clang decides whether the destructor of a local variable that is
    also the result has to run *)
Definition fixed_target (is : list instr) : option string :=
  match rev is with
  | ICondBr (OName c false) t e :: ILoad c' false (OName y true) :: IStore v (OName y' true) :: _ =>
      if (c =? c') && (y =? y') then match v with OTrue => Some t | OFalse => Some e | _ => None end else None
  | _ => None
  end.
(** a block that is reached by the other branch only *)
Definition dead (b : block) : bool :=
  match b_preds b with
  | [p] => match find_block bs p with
           | Some pb => match fixed_target (b_instrs pb) with Some t => negb (t =? b_name b) | None => false end
           | None => false
           end
  | _ => false
  end.
Definition dead_name (x : string) : bool := match find_block bs x with Some b => dead b | None => false end.

(** [p] jumps to [t] or to [e], which changes nothing and goes on to [t] *)
Definition triangle (p e : string) (t : block) : bool :=
  match find_block bs e with
  | Some eb =>
      match b_preds eb with [q] => q =? p | _ => false end &&
      match last_instr (b_instrs eb) with Some (IBr t') => t' =? b_name t | _ => false end &&
      match defs (b_instrs eb) with [] => true | _ => false end &&
      smem e (b_preds t) && forallb (fun q => (q =? p) || (q =? e)) (b_preds t)
  | None => false
  end.

(** where a block can go to: the targets of a conditional branch are reached from
    nowhere else (what the AddEmptyBlocks pass is for), or one of them goes on to the
    other without doing anything *)
Definition ok_edges (b : block) : bool :=
  match ok_instrs (avail (b_name b)) (b_instrs b), last_instr (b_instrs b) with
  | Some X, Some (IBr t) => dead b || forallb (fun n => nmem n X) (avail t)
  | Some X, Some (ICondBr _ t e) =>
      negb (t =? e) &&
      forallb (fun q : string * string => let (t, e) := q in
                        negb (is_header t) && (dead b || dead_name t || forallb (fun n => nmem n X) (avail t)) &&
                        match find_block bs t with
                        | Some tb => match b_preds tb with [p] => p =? b_name b | _ => triangle (b_name b) e tb end
                        | None => false end) [(t, e); (e, t)]
  | Some X, Some (IRet None) =>
      match sret with
      | Some x => nmem (true, x) X && smem (b_name b) (a_result an) && negb (nmem (true, x) (defs (b_instrs b)))
      | None => false
      end
  | Some _, Some (IRet _) => true
  | _, _ => false
  end.

(** [a_result] is what it should be *)
Definition ok_result (b : block) : bool :=
  if smem (b_name b) (a_result an) then
    match sret with
    | None => true
    | Some x =>
        existsb (fun lo => (b_name b =? lo_header lo) && smem x (lo_havocs lo)) los ||
        (match b_preds b with [] => false | _ => true end &&
         forallb (fun p => smem p (a_result an) &&
                           match find_block bs p with
                           | Some pb => negb (nmem (true, x) (defs (b_instrs pb)))
                           | None => false
                           end) (b_preds b))
    end
  else true.

(** [a_bare] contains the blocks that are reached from the entry by unconditional
    jumps only, and no block where several paths meet comes after one of them *)
Definition ends_in_jump (b : string) : bool :=
  match find_block bs b with
  | Some bl => match last_instr (b_instrs bl) with Some (IBr _) => true | _ => false end
  | None => false
  end.
Definition ok_bare (b : block) : bool :=
  match b_preds b with
  | [] => (b_name b =? entry_of f) && (has_pre || smem (b_name b) (a_bare an)) &&
          forallb (fun n => nmem n (arg_regs f)) (avail (b_name b)) && negb (is_header (b_name b))
  | [p] => if smem p (a_bare an) && ends_in_jump p && negb (is_header (b_name b))
           then smem (b_name b) (a_bare an) else true
  | ps => forallb (fun p => negb (smem p (a_bare an))) ps
  end.

(** the blocks of a loop *)
Definition loop_blocks (rl : raw_loop) : list string :=
  rl_header rl :: rl_body rl ++ rl_exits rl ++ rl_latches rl.
Definition block_defs (b : string) : list name :=
  match find_block bs b with Some bl => defs (b_instrs bl) | None => [] end.
(** A natural loop: it is entered through its header only.  What it writes (apart
    from its havocs) is not written elsewhere and no havoc of another loop. *)
Definition ok_loop (p : raw_loop * loop_info) : bool :=
  let L := loop_blocks (fst p) in
  let hv := lo_havocs (snd p) in
  forallb (fun b => (b =? rl_header (fst p)) ||
                    match find_block bs b with
                    | Some bl => forallb (fun q => smem q L) (b_preds bl) &&
                                 match b_preds bl with [] => false | _ => true end
                    | None => false end) L &&
  forallb (fun x => negb (smem x (arg_names f true)) && negb (smem x (arg_names f false)) &&
                    negb (x =? lf_name f ++ "_rv")%string && dmem (a_ptr an) x && negb (smem x (a_junk an)) && negb (smem x (a_lits an))) hv &&
  forallb (fun b => forallb (fun n =>
             (fst n && smem (snd n) hv) ||
             (negb (nmem n (arg_regs f)) && negb (name_eqb n (rv_reg f)) && negb (fst n && is_sret (snd n)) &&
              negb (fst n && existsb (fun lo => smem (snd n) (lo_havocs lo)) los) &&
              forallb (fun b' => smem (b_name b') L || negb (nmem n (defs (b_instrs b')))) bs))
           (block_defs b)) L.
(** two loops without common blocks that write different variables *)
Definition apart (p q : raw_loop * loop_info) : bool :=
  forallb (fun b => negb (smem b (loop_blocks (fst q)))) (loop_blocks (fst p)) &&
  forallb (fun x => negb (smem x (lo_havocs (snd q)))) (lo_havocs (snd p)).
(** a loop in the body of another one *)
Definition inside (q p : raw_loop * loop_info) : bool :=
  negb (smem (rl_header (fst p)) (loop_blocks (fst q))) &&
  forallb (fun b => smem b (loop_blocks (fst p))) (loop_blocks (fst q)) &&
  forallb (fun x => smem x (lo_havocs (snd p))) (lo_havocs (snd q)) &&
  forallb (fun n => (fst n && smem (snd n) (lo_havocs (snd p))) || nmem n (avail (rl_header (fst q)))) (avail (rl_header (fst p))).
Fixpoint ok_pairs (ps : list (raw_loop * loop_info)) : bool :=
  match ps with
  | [] => true
  | p :: r => forallb (fun q => apart p q || inside q p || inside p q) r && ok_pairs r
  end.
(** a loop that has nothing to do with the others *)
Definition alone (ps : list (raw_loop * loop_info)) (p : raw_loop * loop_info) : bool :=
  forallb (fun q => (rl_header (fst q) =? rl_header (fst p)) || apart p q) ps.

(** every block comes after its predecessors *)
Fixpoint in_order (done rest : list string) : bool :=
  match rest with
  | [] => true
  | b :: r =>
      match find_block bs b with
      | Some bl => forallb (fun p => smem p done) (b_preds bl)
      | None => false
      end && in_order (b :: done) r
  end.
Definition ok_order : bool :=
  in_order [] (a_order an) && forallb (fun b => smem (b_name b) (a_order an)) bs.

(** nothing that is never read counts as available *)
Definition ok_avail (b : block) : bool := forallb (fun n => negb (junk n)) (avail (b_name b)).

Definition supported_with : bool :=
  nodupb (map fst (lf_blocks f)) && ok_types f && ok_order && forallb ok_avail bs &&
  forallb ok_edges bs && forallb ok_bare bs && forallb ok_result bs &&
  forallb ok_loop (combine (lf_loops f) los) && ok_pairs (combine (lf_loops f) los).

(** The invariants do not speak about the pointers in [a_junk] and the Booleans in
    [a_lits], and about the cell for the result only in loops that write it. *)
Definition ok_scope (grammars : dict (list string * list obj)) : bool :=
  forallb (fun p : nat * loop_info =>
    let fine := fun x => negb (smem x (a_junk an)) && negb (smem x (a_lits an)) && (negb (is_sret x) || smem x (lo_havocs (snd p))) in
    match dget grammars (inv_name (lf_name f) (fst p)) with
    | Some (names, os) => forallb fine names &&
        forallb (fun o => match var_name o with Ok x => fine x | Err _ => true end) os
    | None => match a_junk an, a_lits an with
              | [], [] => match sret with None => true | Some x => smem x (lo_havocs (snd p)) end
              | _, _ => false
              end
    end) (numbered los).

(** *** Nested loops

    The frontend uses one variable for what a loop changes, at the head of the loop
    around it and at its own, so nothing that is known when it is entered may depend on
    that variable. *)

(** the names an invariant can speak about *)
Definition scope_names (grammars : dict (list string * list obj)) (k : nat) (lo : loop_info) : option (list string) :=
  match dget grammars (inv_name (lf_name f) k) with
  | Some (names, os) =>
      Some (names ++ match os with
                     | [] => lo_havocs lo ++ arg_names f true ++ arg_names f false
                     | _ => flat_map (fun o => match var_name o with Ok x => [x] | Err _ => [] end) os
                     end)
  | None => None
  end.
(** the registers an instruction reads; constructing a vector does not look at what
    was there *)
Definition op_names (o : operand) : list name := match o with OName x p => [(p, x)] | _ => [] end.
Definition reads1 (i : instr) : list name :=
  match i with
  | ILoad _ _ o | IStore o _ | IConv _ _ o => op_names o
  | IBin _ _ a b | ICmp _ _ a b => op_names a ++ op_names b
  | ICall _ _ f args _ => if f =? "vector" then [] else flat_map op_names args
  | _ => []
  end.
(** the registers with a clean value after an instruction *)
Definition clean1 (Y : list name) (i : instr) : list name :=
  if forallb (fun n => nmem n Y) (reads1 i) then defs1 i ++ Y else filter (fun n => negb (nmem n (defs1 i))) Y.
(** ... and at the end of block [p]; the condition it branches on is clean too *)
Definition clean_out (T : dict (list name)) (p : string) : option (list name) :=
  match dget T p, find_block bs p with
  | Some Y, Some pb =>
      let Y' := fold_left clean1 (b_instrs pb) Y in
      match last_instr (b_instrs pb) with
      | Some (IBr _) => Some Y'
      | Some (ICondBr (OName c false) _ _) => if nmem (false, c) Y' then Some Y' else None
      | _ => None
      end
  | _, _ => None
  end.
Definition clean_into (T : dict (list name)) (p : string) (Y : list name) : bool :=
  match clean_out T p with Some Y' => forallb (fun n => nmem n Y') Y | None => false end.
(** the register or pointer with the name [x] *)
Definition kind (x : string) : name := (negb (dmem (a_prim an) x), x).
Definition has_kind (Y : list name) (x : string) : bool := nmem (kind x) Y.
Definition havoc_of (lo : loop_info) (n : name) : bool := fst n && smem (snd n) (lo_havocs lo).
(** the registers in the table for a loop with the havocs [hv] are clean *)
Definition ok_table (grammars : dict (list string * list obj)) (hv : list string) (T : dict (list name)) (b : block) : bool :=
  match dget T (b_name b) with
  | None => true
  | Some Y =>
      let q := filter (fun q => lo_header (snd q) =? b_name b) (numbered los) in
      match b_preds b with
      | [] => forallb (fun n => nmem n (arg_regs f)) Y
      | ps => forallb (fun p => clean_into T p (filter (fun n => negb (existsb (fun q => havoc_of (snd q) n) q)) Y)) ps
      end &&
      forallb (fun q : nat * loop_info =>
        forallb (fun n => negb (havoc_of (snd q) n) || negb (smem (snd n) hv)) Y &&
        match scope_names grammars (fst q) (snd q) with Some l => forallb (has_kind Y) l | None => false end) q
  end.
Definition ok_nested (grammars : dict (list string * list obj)) (k : nat) (p : raw_loop * loop_info) : bool :=
  let lo := snd p in
  match dget (a_clean an) (lo_header lo), find_block bs (lo_header lo), scope_names grammars k lo with
  | Some T, Some h, Some l =>
      forallb (ok_table grammars (lo_havocs lo) T) bs &&
      forallb (fun q => clean_into T q (filter (fun n => negb (havoc_of lo n)) (avail (lo_header lo)))) (b_preds h) &&
      forallb (fun x => smem x (lo_havocs lo) || has_kind (avail (lo_header lo)) x) l
  | _, _, _ => false
  end.
Definition ok_nesting (grammars : dict (list string * list obj)) : bool :=
  let ps := combine (lf_loops f) los in
  forallb (fun q : nat * (raw_loop * loop_info) => alone ps (snd q) || ok_nested grammars (fst q) (snd q)) (combine (seq 0 (length ps)) ps).
End Class.

Definition lsupported (an : annot) (uninterp : list string) (grammars : dict (list string * list obj))
  (f : lfunc) (bs : list block) (los : list loop_info) (has_pre : bool) : bool :=
  supported_with an uninterp (sret_name f) f bs los has_pre &&
  ok_scope an (sret_name f) f los grammars &&
  ok_nesting an f bs los grammars.

(** the control-flow graph of a function as the frontend sees it *)
Definition graph_of (f : lfunc) : res (list block * list loop_info) :=
  bs <- setup_blocks (lf_blocks f) ;; loops_of bs (lf_loops f).
