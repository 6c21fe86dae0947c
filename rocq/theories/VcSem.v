(** What annotated block graphs compute, and the graphs the theorem about
    metalift/vc.py speaks about.  This is a reference semantics written independently
    of vc.py; it is not a model of code in /repo. *)

From Coq Require Import String List ZArith Bool.
From Verif Require Import Ast Semantics Dict PySem VcModel.
Import ListNotations.
Local Open Scope Z_scope.
Local Open Scope string_scope.
Local Open Scope list_scope.

(** ** Execution *)

(** the values of registers and of memory cells; integers are unbounded *)
Record store : Type := { cr : string -> option val; cm : string -> option val }.
Definition put_reg (s : store) (x : string) (v : val) : store := {| cr := upd (cr s) x v; cm := cm s |}.
Definition put_mem (s : store) (x : string) (v : val) : store := {| cr := cr s; cm := upd (cm s) x v |}.
Definition clear_mem (s : store) (x : string) : store :=
  {| cr := cr s; cm := fun y => if String.eqb x y then None else cm s y |}.

Definition op_value (s : store) (o : vop) : option val :=
  match o with
  | VName x => cr s x
  | VNum z => Some (VInt z)
  | VTrue => Some (VBool true)
  | VFalse => Some (VBool false)
  end.

Definition unsigned32 (z : Z) : Z := z mod 4294967296.
Definition compare_values (cond : string) (a b : val) : option bool :=
  if cond =? "eq" then Some (val_eqb a b)
  else if cond =? "ne" then Some (negb (val_eqb a b))
  else match a, b with
       | VInt x, VInt y =>
           if cond =? "sgt" then Some (y <? x)%Z
           else if cond =? "sle" then Some (x <=? y)%Z
           else if cond =? "slt" then Some (x <? y)%Z
           else if cond =? "ult" then Some (unsigned32 x <? unsigned32 y)%Z
           else None
       | _, _ => None
       end.
Definition arith (k : kind) (a b : val) : option val :=
  match k, a, b with
  | KAdd, VInt x, VInt y => Some (VInt (x + y))
  | KSub, VInt x, VInt y => Some (VInt (x - y))
  | KMul, VInt x, VInt y => Some (VInt (x * y))
  | _, _, _ => None
  end.

Section Sem.
(** the meaning of the called functions, and the types of the memory cells *)
Variables (I : interp) (cells : dict ty).

(** the value of what is asserted or assumed *)
Fixpoint mvalue (s : store) (m : minst) {struct m} : option val :=
  match m with
  | MVal x => cr s x
  | MZero => Some (VInt 0)
  | MLit b => Some (VBool b)
  | MLoad p => cm s p
  | MNot m => match mvalue s m with Some (VBool b) => Some (VBool (negb b)) | _ => None end
  | MOr m => match mvalue s m with Some (VBool b) => Some (VBool b) | _ => None end
  | MCall f _ args => match mapO (mvalue s) args with Some vs => i_call I f vs | None => None end
  | MOther => None
  end.

(** One instruction.  An [assume] that does not hold ends the execution; so does
    undefined behaviour, such as reading a memory cell before writing to it.  An
    [assert] lets the execution go on in any case.  Of pointers that are cast this
    semantics does not speak. *)
Inductive exec : vinstr -> store -> store -> Prop :=
| x_alloca x t s : exec (JAlloca x t) s (clear_mem s x)
| x_load x t p s v : cm s p = Some v -> exec (JLoad x t p) s (put_reg s x v)
| x_store o p s v : op_value s o = Some v -> exec (JStore o p) s (put_mem s p v)
| x_bin k x a b s v w u : op_value s a = Some v -> op_value s b = Some w -> arith k v w = Some u ->
    exec (JBin k x a b) s (put_reg s x u)
| x_cmp cond x t a b s v w u : op_value s a = Some v -> op_value s b = Some w -> compare_values cond v w = Some u ->
    exec (JCmp cond x t a b) s (put_reg s x (VBool u))
| x_skip s : exec JSkip s s
| x_cast x y s v : cr s y = Some v -> exec (JCast x (VName y)) s (put_reg s x v)
| x_call x t f args s vs v : mapO (op_value s) args = Some vs -> i_call I f vs = Some v ->
    exec (JCall x t f args) s (put_reg s x v)
| x_assert m s b : mvalue s m = Some (VBool b) -> exec (JAssert m) s s
| x_assume m s : mvalue s m = Some (VBool true) -> exec (JAssume m) s s
| x_havoc ps s s' : havocked ps s s' -> exec (JHavoc ps) s s'
with havocked : list string -> store -> store -> Prop :=
| h_nil s : havocked [] s s
| h_cons p ps s s' t v : dget cells p = Some t -> of_type t v = true -> havocked ps (put_mem s p v) s' ->
    havocked (p :: ps) s s'.
Inductive execs : list vinstr -> store -> store -> Prop :=
| xs_nil s : execs [] s s
| xs_cons i is s s1 s2 : exec i s s1 -> execs is s1 s2 -> execs (i :: is) s s2.

(** the store at the start: the arguments have any values of their types *)
Definition initial (args : list (string * ty)) (s : store) : Prop :=
  (forall x t, In (x, t) args -> exists v, cr s x = Some v /\ of_type t v = true) /\
  (forall x, ~ In x (map fst args) -> cr s x = None) /\ (forall x, cm s x = None).

Section Graph.
Variables (bs : list vblock) (first : string) (args : list (string * ty)).
(** an execution from the entry block comes to the start of a block with a store *)
Inductive reaches : string -> store -> Prop :=
| reach_first s : initial args s -> reaches first s
| reach_next b c s s' : In b bs -> reaches (k_name b) s -> execs (k_instrs b) s s' -> In c (k_succs b) -> reaches c s'.
(** some execution violates an assertion *)
Definition violation : Prop :=
  exists b pre m post s s', In b bs /\ k_instrs b = pre ++ JAssert m :: post /\
    reaches (k_name b) s /\ execs pre s s' /\ mvalue s' m = Some (VBool false).
End Graph.
End Sem.

(** A condition is valid: it is true for all values of the declared variables. *)
Definition fits_vars (vars : list expr) (r : env) : Prop :=
  forall x t, In (mkVar x t) vars -> exists v, r x = Some v /\ of_type t v = true.
Definition valid_vc (I : interp) (vars : list expr) (body : expr) : Prop :=
  forall r, fits_vars vars r -> eval I r body = Some (VBool true).

(** ** Well-formed graphs *)

Record sigs : Type := { g_regs : dict ty; g_cells : dict ty; g_fns : dict (list ty * ty) }.

(** the called functions have a value of the right type for arguments of the right
    types *)
Definition respects (I : interp) (G : sigs) : Prop :=
  forall f ts t vs, dget (g_fns G) f = Some (ts, t) -> Forall2 (fun t v => of_type t v = true) ts vs ->
    exists v, i_call I f vs = Some v /\ of_type t v = true.

Definition is_ty (o : option ty) (t : ty) : bool := match o with Some u => ty_eqb u t | None => false end.
Definition simple (t : ty) : bool := match t with TInt | TBool | TList TInt => true | _ => false end.

(** registers that have been assigned, and cells that have been written to *)
Definition known : Type := (list string * list string)%type.
Definition know_reg (k : known) (x : string) : known := (x :: fst k, snd k).
Definition know_mem (k : known) (x : string) : known := (fst k, x :: snd k).

Section Check.
Variable G : sigs.

Definition ok_op (k : known) (o : vop) (t : ty) : bool :=
  match o with
  | VName x => smem x (fst k) && is_ty (dget (g_regs G) x) t
  | VNum _ => ty_eqb t TInt
  | _ => ty_eqb t TBool
  end.
(** each list element with the type at its position *)
Definition all2 {A B} (f : A -> B -> bool) : list A -> list B -> bool :=
  fix go l1 l2 := match l1, l2 with
                  | [], [] => true
                  | a :: r1, b :: r2 => f a b && go r1 r2
                  | _, _ => false
                  end.
Fixpoint ok_min (k : known) (m : minst) (t : ty) {struct m} : bool :=
  match m with
  | MVal x => smem x (fst k) && is_ty (dget (g_regs G) x) t
  | MZero => ty_eqb t TInt
  | MLit _ => ty_eqb t TBool
  | MLoad p => smem p (snd k) && is_ty (dget (g_cells G) p) t
  | MNot m | MOr m => ty_eqb t TBool && ok_min k m TBool
  | MCall f u args =>
      ty_eqb u t && match dget (g_fns G) f with
                    | Some (ts, u') => ty_eqb u' u && all2 (ok_min k) args ts
                    | None => false
                    end
  | MOther => false
  end.

(** types, and no use of a register or a cell before it has a value; [ult] compares
    without sign, which the code does not *)
Definition ok_instr (k : known) (i : vinstr) : option known :=
  let when (b : bool) (k' : known) := if b then Some k' else None in
  match i with
  | JAlloca x t =>
      when ((ty_eqb t TInt || ty_eqb t TBool) && is_ty (dget (g_cells G) x) t && negb (smem x (snd k))) k
  | JLoad x t p => when (smem p (snd k) && is_ty (dget (g_cells G) p) t && is_ty (dget (g_regs G) x) t) (know_reg k x)
  | JStore o p =>
      match dget (g_cells G) p with Some t => when (ok_op k o t) (know_mem k p) | None => None end
  | JBin op x a b =>
      when (match op with KAdd | KSub | KMul => true | _ => false end &&
            ok_op k a TInt && ok_op k b TInt && is_ty (dget (g_regs G) x) TInt) (know_reg k x)
  | JCmp cond x t a b =>
      when ((if smem cond ["eq"; "ne"] then ok_op k a TInt && ok_op k b TInt || ok_op k a TBool && ok_op k b TBool
             else smem cond ["sgt"; "sle"; "slt"] && ok_op k a TInt && ok_op k b TInt) &&
            ty_eqb t TBool && is_ty (dget (g_regs G) x) TBool) (know_reg k x)
  | JSkip => Some k
  | JCast x (VName y) =>
      match dget (g_regs G) y with Some t => when (ok_op k (VName y) t && is_ty (dget (g_regs G) x) t && negb (dmem (g_cells G) y)) (know_reg k x) | None => None end
  | JCall x t f args =>
      match dget (g_fns G) f with
      | Some (ts, u) => when (ty_eqb u t && is_ty (dget (g_regs G) x) t && all2 (ok_op k) args ts) (know_reg k x)
      | None => None
      end
  | JAssert m | JAssume m => when (ok_min k m TBool) k
  | JHavoc ps => when (forallb (dmem (g_cells G)) ps) (fst k, ps ++ snd k)
  | _ => None
  end.
Fixpoint ok_instrs (k : known) (is : list vinstr) : option known :=
  match is with
  | [] => Some k
  | i :: r => match ok_instr k i with Some k' => ok_instrs k' r | None => None end
  end.
End Check.

(** no [assume] after an [assert] *)
Definition is_assume (i : vinstr) : bool := match i with JAssume _ => true | _ => false end.
Fixpoint assumes_first (is : list vinstr) : bool :=
  match is with
  | [] => true
  | JAssert _ :: r => forallb (fun i => negb (is_assume i)) r
  | _ :: r => assumes_first r
  end.

(** the registers for which the condition has a variable *)
Definition assigned (b : vblock) : list string :=
  flat_map (fun i => match i with JLoad x _ _ | JCmp _ x _ _ _ | JCall x _ _ _ => [x] | _ => [] end) (k_instrs b).
Definition havocs (b : vblock) : list string :=
  flat_map (fun i => match i with JHavoc ps => ps | _ => [] end) (k_instrs b).

(** the two successors of a branch start with [assume]s of a condition and of its
    negation *)
Definition opposite (a b : vblock) : Prop :=
  exists m r r', (k_instrs a = JAssume m :: r /\ k_instrs b = JAssume (MNot m) :: r') \/
                 (k_instrs a = JAssume (MNot m) :: r /\ k_instrs b = JAssume m :: r').

(** The graphs that analysis.py makes of functions without the library calls of
    models.py: types are right, registers are assigned once and before they are used,
    cells are written before they are read, edges are listed at both ends, each block
    but the first has a predecessor, and the successors of a branch have no other
    predecessor and start by assuming opposite conditions (which the pass
    AddEmptyBlocks and analysis.py:255-303 see to).  Nothing is said about cycles. *)
Record wf_graph (G : sigs) (K : string -> known) (bs : list vblock) (first : string) (args : list (string * ty)) : Prop := {
  wg_names : NoDup (map fst args ++ flat_map assigned bs ++ map k_name bs);
  wg_fresh : forall x p n, In x (map fst args ++ flat_map assigned bs ++ map k_name bs) -> In p (flat_map havocs bs) ->
             x <> (p ++ "_" ++ string_of_nat n)%string;
  wg_args : forall x t, In (x, t) args -> dget (g_regs G) x = Some t;
  wg_simple : forall x t, dget (g_regs G) x = Some t \/ dget (g_cells G) x = Some t -> simple t = true;
  wg_first : exists b, In b bs /\ k_name b = first /\ k_preds b = [];
  wg_preds : forall b, In b bs -> k_name b <> first -> k_preds b <> [];
  wg_edges : forall b c, In b bs -> In c bs -> (In (k_name c) (k_succs b) <-> In (k_name b) (k_preds c));
  wg_closed : forall b x, In b bs -> In x (k_succs b) \/ In x (k_preds b) -> In x (map k_name bs);
  wg_branch : forall b c c', In b bs -> In c bs -> In c' bs -> In (k_name c) (k_succs b) -> In (k_name c') (k_succs b) -> c <> c' ->
              k_preds c = [k_name b] /\ k_preds c' = [k_name b] /\ opposite c c';
  wg_known : K first = (map fst args, []);
  wg_block : forall b, In b bs -> assumes_first (k_instrs b) = true /\
             exists k, ok_instrs G (K (k_name b)) (k_instrs b) = Some k /\
               forall c, In c (k_succs b) -> incl (fst (K c)) (fst k) /\ incl (snd (K c)) (snd k) }.
