(** What a solution means as Python (the language reference), which solutions the
    theorems of [Properties_Lm] cover, and when an interpretation gives called functions
    their meaning.  Reference definitions; no model of code in /repo. *)

From Coq Require Import String List ZArith Bool.
From Verif Require Import Ast Dict Semantics LibSem ObjModel Properties_Obj LmModel.
Import ListNotations.
Local Open Scope string_scope.
Local Open Scope list_scope.
Local Open Scope Z_scope.

(** ** Python *)

(** a value, or a function from values to a value (a lambda or a named function) *)
Inductive pval : Type := PV (v : val) | PF (h : list val -> option val).
Definition as_val (p : pval) : option val := match p with PV v => Some v | PF _ => None end.

(** parameters bound to arguments on top of an environment *)
Fixpoint bind (ps : list string) (vs : list val) (r : env) : option env :=
  match ps, vs with
  | [], [] => Some r
  | p :: ps', v :: vs' => match bind ps' vs' r with Some r' => Some (upd r' p v) | None => None end
  | _, _ => None
  end.

(** binary operators; [and], [or] are not here because they do not always look at their
    second operand.  [/] gives a float, which is no value of the IR. *)
Definition py_op (strict : bool) (op : string) (a b : val) : option val :=
  match a, b with
  | VInt x, VInt y =>
      if String.eqb op "+" then Some (VInt (x + y))
      else if String.eqb op "-" then Some (VInt (x - y))
      else if String.eqb op "*" then Some (VInt (x * y))
      else if String.eqb op "//" then
        if (if strict then 0 <? y else negb (y =? 0)) then Some (VInt (x / y)) else None
      else if String.eqb op "%" then
        if (if strict then 0 <? y else negb (y =? 0)) then Some (VInt (x mod y)) else None
      else None
  | VList l, VList l' => if String.eqb op "+" then Some (VList (l ++ l')) else None
  | _, _ => None
  end.
(** comparisons; values of different kinds are not compared here *)
Definition py_cmp (op : string) (a b : val) : option bool :=
  match a, b with
  | VInt x, VInt y =>
      if String.eqb op "==" then Some (x =? y)
      else if String.eqb op "!=" then Some (negb (x =? y))
      else if String.eqb op "<" then Some (x <? y)
      else if String.eqb op "<=" then Some (x <=? y)
      else if String.eqb op ">" then Some (y <? x)
      else if String.eqb op ">=" then Some (y <=? x)
      else None
  | VBool _, VBool _ | VList _, VList _ =>
      if String.eqb op "==" then Some (val_eqb a b)
      else if String.eqb op "!=" then Some (negb (val_eqb a b)) else None
  | _, _ => None
  end.
(** [a op b op c ...]: stops at the first comparison that fails *)
Fixpoint py_chain (a : option val) (rest : list (option val)) (ops : list string) : option val :=
  match ops, rest with
  | [], [] => match a with Some _ => Some (VBool true) | None => None end
  | op :: ops', b :: rest' =>
      match a, b with
      | Some x, Some y =>
          match py_cmp op x y with
          | Some true => match ops' with [] => Some (VBool true) | _ => py_chain b rest' ops' end
          | Some false => Some (VBool false)
          | None => None
          end
      | _, _ => None
      end
  | _, _ => None
  end.
(** every [k]-th element *)
Fixpoint py_every {A} (k i : nat) (l : list A) : list A :=
  match l with
  | [] => []
  | a :: r => match i with O => a :: py_every k (k - 1) r | S j => py_every k j r end
  end.

(** arguments with keywords, in the order of the parameters: positional arguments first,
    then each remaining parameter by its name *)
Fixpoint by_name {A} (x : string) (l : list (option string * A)) : option A :=
  match l with
  | [] => None
  | (Some y, a) :: r => if String.eqb x y then Some a else by_name x r
  | (None, _) :: r => by_name x r
  end.
Fixpoint arrange {A} (ps : list string) (l : list (option string * A)) (kw : list (option string * A))
  : option (list A) :=
  match ps with
  | [] => Some []
  | p :: ps' =>
      let '(hd, tl) := match l with (None, a) :: r => (Some a, r) | _ => (by_name p kw, []) end in
      match hd, arrange ps' tl kw with Some a, Some r => Some (a :: r) | _, _ => None end
  end.

(** Evaluation.  [D] gives the meaning of called functions, [names] their parameters,
    [r] the values of variables; [None]: an exception, or a value the IR does not have.

    With [strict = true] some of Python's evaluations are left out, for which the reading
    of the solution is not faithful ([C53_refuted_*]): negative indices and bounds, steps,
    list displays that are not empty, keyword arguments, divisors that are not positive. *)
Fixpoint peval (strict : bool) (D : string -> list pval -> option val) (names : string -> option (list string))
               (r : env) (n : pnode) {struct n} : option pval :=
  let value r n := match peval strict D names r n with Some p => as_val p | None => None end in
  match n with
  | NName x _ =>
      match r x with Some v => Some (PV v) | None => Some (PF (fun vs => D x (map PV vs))) end
  | NInt z => Some (PV (VInt z))
  | NOp op a b =>
      match value r a with
      | Some (VBool x) =>
          if String.eqb op "and" then
            if x then match value r b with Some (VBool y) => Some (PV (VBool y)) | _ => None end
            else Some (PV (VBool false))
          else if String.eqb op "or" then
            if x then Some (PV (VBool true))
            else match value r b with Some (VBool y) => Some (PV (VBool y)) | _ => None end
          else None
      | Some x =>
          match value r b with
          | Some y => option_map PV (py_op strict op x y)
          | None => None
          end
      | None => None
      end
  | NUnary op a =>
      match value r a with
      | Some (VInt z) => if String.eqb op "-" then Some (PV (VInt (- z))) else None
      | Some (VBool b) => if String.eqb op "not" then Some (PV (VBool (negb b))) else None
      | _ => None
      end
  | NList items _ =>
      if strict && negb (Nat.eqb (List.length items) 0) then None
      else match mapO (value r) items with Some vs => Some (PV (VList vs)) | None => None end
  | NCond c a b =>
      match value r c with
      | Some (VBool x) => option_map PV (if x then value r a else value r b)
      | _ => None
      end
  | NCmp operands ops =>
      match map (value r) operands with
      | a :: rest => option_map PV (py_chain a rest ops)
      | [] => None
      end
  | NIndex b i =>
      match value r b, value r i with
      | Some (VList l), Some (VInt z) =>
          if strict && (z <? 0) then None else option_map PV (py_index l z)
      | _, _ => None
      end
  | NSlice b st en step =>
      let bound o := match o with
                     | None => Some None
                     | Some n => match value r n with
                                 | Some (VInt z) => if strict && (z <? 0) then None else Some (Some z)
                                 | _ => None
                                 end
                     end in
      match value r b, bound st, bound en, bound step with
      | Some (VList l), Some i, Some j, Some None => Some (PV (VList (py_slice l i j)))
      | Some (VList l), Some i, Some j, Some (Some k) =>
          if strict || (k <=? 0) then None
          else Some (PV (VList (py_every (Z.to_nat k) 0 (py_slice l i j))))
      | _, _, _, _ => None
      end
  | NCall f args kws _ =>
      match r f with
      | Some _ => None
      | None =>
          if String.eqb f "len" then
            match args with
            | [a] => match value r a with Some (VList l) => Some (PV (VInt (py_len l))) | _ => None end
            | _ => None
            end
          else
            match mapO (peval strict D names r) args with
            | Some vs =>
                if forallb (fun k => match k with None => true | Some _ => false end) kws
                then option_map PV (D f vs)
                else if strict then None
                else match names f with
                     | Some ps => match arrange ps (combine kws vs) (combine kws vs) with
                                  | Some vs' => option_map PV (D f vs')
                                  | None => None
                                  end
                     | None => None
                     end
            | None => None
            end
      end
  | NLambda ps _ body =>
      Some (PF (fun vs => match bind ps vs r with Some r' => value r' body | None => None end))
  | NMethod | NApply | NOther => None
  end.

Definition pvalue strict D names r n : option val :=
  match peval strict D names r n with Some p => as_val p | None => None end.

(** a function body: assignments to names, then a [return] *)
Fixpoint pexec strict D names (r : env) (b : list pstmt) : option val :=
  match b with
  | SReturn (Some e) :: _ => pvalue strict D names r e
  | SAssign lhs e :: rest =>
      match pvalue strict D names r e with
      | Some v =>
          match fold_left (fun o l => match o, l with
                                      | Some r', LName x => Some (upd r' x v)
                                      | _, _ => None
                                      end) lhs (Some r) with
          | Some r' => pexec strict D names r' rest
          | None => None
          end
      | None => None
      end
  | _ => None
  end.

Definition none_env : env := fun _ => None.
(** a call of the function with the given arguments *)
Definition pcall strict D names (f : pfun) (vs : list val) : option val :=
  match bind (f_params f) vs none_env with
  | Some r => pexec strict D names r (f_body f)
  | None => None
  end.

(** ** Values of a type *)

(** integers, truth values, vectors and matrices of integers *)
Definition fo (t : ty) : bool :=
  match t with TInt | TBool | TList TInt | TList (TList TInt) => true | _ => false end.
Definition vty (t : ty) (v : val) : Prop :=
  match t with
  | TInt => exists z, v = VInt z
  | TBool => exists b, v = VBool b
  | TList TInt => exists l, v = vl l
  | TList (TList TInt) => exists m, v = vm m
  | _ => False
  end.

(** ** Meaning of the declarations *)

(** A function passed as an argument, as the backends see it after
    [replace_in_calls]: its name. *)
Fixpoint erase (e : expr) : expr :=
  match e with
  | Atom a => Atom a
  | Node k t args =>
      Node k t (map (fun a => if is_call e && is_decl a
                              then match a with Node _ ta _ => mkVar (decl_name a) ta | _ => a end
                              else erase a) args)
  end.

(** names of functions denote themselves *)
Definition globals (calls : list (string * string)) : env :=
  fun x => if smem x (map snd calls) then Some (VFn x) else None.

(** [I] gives a declared function the value of its body. *)
Definition defines (I : interp) (G : env) (d : expr) : Prop :=
  match d with
  | Node KFnDeclRec _ (Atom (PStr f) :: b :: ps) =>
      forall vs r, bind (map vname ps) vs G = Some r -> i_call I f vs = eval I r (erase b)
  | _ => True
  end.

(** [g] is, for [I], a function of this type *)
Definition typed_fn (I : interp) (g : string) (r : ty) (a : list ty) : Prop :=
  forall vs, Forall2 vty a vs -> exists v, i_call I g vs = Some v /\ vty r v.
(** an argument of this type: a value, or the name of a function *)
Definition arg_ty (I : interp) (t : ty) (v : val) : Prop :=
  match t with
  | TFn (r :: a) => exists g, v = VFn g /\ typed_fn I g r a
  | _ => vty t v
  end.
(** Python's argument and the IR's argument: the same value, or a function and the name
    of a function that has all its results *)
Inductive arg_rel (I : interp) : ty -> pval -> val -> Prop :=
| rel_val t v : vty t v -> arg_rel I t (PV v) v
| rel_fn r a h g : typed_fn I g r a ->
    (forall vs v, Forall2 vty a vs -> h vs = Some v -> i_call I g vs = Some v) ->
    arg_rel I (TFn (r :: a)) (PF h) (VFn g).

Inductive args_rel (I : interp) : list ty -> list pval -> list val -> Prop :=
| args_nil : args_rel I [] [] []
| args_cons t ts p ps v vs : arg_rel I t p v -> args_rel I ts ps vs -> args_rel I (t :: ts) (p :: ps) (v :: vs).

(** The functions of the signatures: in [I] they are total on arguments of their types, and
    have the results they have in Python. *)
Record agree (I : interp) (D : string -> list pval -> option val) (sigs : dict psig) : Prop := {
  ag_total : forall f g vs, dget sigs f = Some g -> Forall2 (arg_ty I) (g_args g) vs ->
    exists v, i_call I f vs = Some v /\ vty (g_ret g) v;
  ag_same : forall f g ps vs v, dget sigs f = Some g -> args_rel I (g_args g) ps vs ->
    D f ps = Some v -> i_call I f vs = Some v }.

(** lists as in one of the two backends, division by positive numbers as in Python *)
Record host (I : interp) : Prop := {
  h_backend : backend I;
  h_div : forall a b, 0 < b -> i_div I a b = Some (a / b);
  h_mod : forall a b, 0 < b -> i_mod I a b = Some (a mod b);
  h_div_total : forall a b, exists z, i_div I a b = Some z;
  h_mod_total : forall a b, exists z, i_mod I a b = Some z }.

(** ** Which solutions are covered *)

(** Names are in scope: a variable is a parameter of the function or of the lambda it is
    in, with the type mypy gives it, so lambdas use no variables of the function around
    them; a function that is passed is a lambda or a function that has a signature; no
    parameter has the name of a function that is passed ([gs]).  Functions occur as
    arguments only. *)
Definition fn_sig (sigs : dict psig) (x : string) (r : ty) (a : list ty) : bool :=
  match dget sigs x with
  | Some g => ty_eqb (g_ret g) r && list_eqb ty_eqb (g_args g) a && fo r && forallb fo a
  | None => false
  end.
Definition apart_from (gs : list string) (ps : list string) : bool := forallb (fun p => negb (smem p gs)) ps.
Fixpoint scoped (sigs : dict psig) (gs : list string) (vars : dict ty) (arg : bool) (n : pnode) {struct n} : bool :=
  let here := scoped sigs gs vars false in
  let opt o := match o with Some n => here n | None => true end in
  match n with
  | NName x t =>
      match ir_ty t with
      | Ok (Some (TFn (r :: a))) => arg && negb (dmem vars x) && fn_sig sigs x r a
      | Ok (Some t') => match dget vars x with Some tx => ty_eqb tx t' && fo tx | None => false end
      | _ => false
      end
  | NInt _ => true
  | NOp _ a b | NIndex a b => here a && here b
  | NUnary _ a => here a
  | NList items t =>
      forallb here items && match ir_ty t with Ok (Some t') => fo t' | _ => false end
  | NCond a b c => here a && here b && here c
  | NCmp l _ => forallb here l
  | NSlice b st en step => here b && opt st && opt en && opt step
  | NCall f args _ _ =>
      if String.eqb f "len" then forallb here args
      else forallb (scoped sigs gs vars true) args
  | NLambda ps t body =>
      match ir_ty t with
      | Ok (Some (TFn (r :: a))) =>
          arg && apart_from gs ps && forallb fo a && Nat.eqb (List.length ps) (List.length a) &&
          scoped sigs gs (combine ps a) false body
      | _ => false
      end
  | NMethod | NApply | NOther => false
  end.

(** What has been read is as it should be where the parser does not check: no IR object is
    left among the arguments of an expression, a function's result type is the type of its
    body, indices and bounds are integers. *)
Definition indexing : list string :=
  ["list_get"; "matrix_get"; "list_tail"; "matrix_tail"; "list_take"; "matrix_take"; "vec_slice"; "matrix_row_slice"].
Definition has_type (t : ty) (e : expr) : bool :=
  match e with Node _ t' _ => ty_eqb t' t | Atom _ => false end.
Fixpoint tidy (e : expr) : bool :=
  match e with
  | Atom _ => true
  | Node k t args =>
      forallb tidy args &&
      match k, args with
      | KConstraint, _ => false
      | KFnDeclRec, _ :: b :: _ => match t with TFn (r :: _) => has_type r b | _ => false end
      | KCall, Atom (PStr f) :: _ :: ix => if smem f indexing then forallb (has_type TInt) ix else true
      | _, _ => true
      end
  end.

(** neither an object nor [None] is left in an expression by the parser *)
Fixpoint clean (e : expr) : bool :=
  match e with
  | Atom _ => false
  | Node k _ args =>
      match k with
      | KConstraint => false
      | KVar | KLit => true
      | KCall | KFnDeclRec => match args with _ :: r => forallb clean r | [] => true end
      | _ => forallb clean args
      end
  end.

(** names in the order of their characters *)
Fixpoint ordered (l : list string) : bool :=
  match l with a :: ((b :: _) as r) => String.leb a b && ordered r | _ => true end.

(** the expression a body returns: the one in its [return], or the one assigned to the
    variable that it returns *)
Definition returned (b : list pstmt) : option pnode :=
  match b with
  | [SReturn (Some e)] => Some e
  | [SAssign [LName x] e; SReturn (Some (NName y _))] => if String.eqb x y then Some e else None
  | _ => None
  end.
(** a function of the solution that is covered: its parameters are no functions, have
    different names, and the returned expression is in scope *)
Definition covered (sigs : dict psig) (gs : list string) (f : pfun) : Prop :=
  exists g e, dget sigs (f_name f) = Some g /\ returned (f_body f) = Some e /\
    NoDup (f_params f) /\ List.length (f_params f) = List.length (g_args g) /\
    apart_from gs (f_params f) = true /\
    scoped sigs gs (combine (f_params f) (g_args g)) false e = true.

(** ** A run of the solution *)
Fixpoint find_fun (fs : list pfun) (x : string) : option pfun :=
  match fs with
  | [] => None
  | f :: r => if String.eqb (f_name f) x then Some f else find_fun r x
  end.
(** Functions of the solution are run, at most [fuel] calls deep; [L] gives the results of
    the functions of the DSL. *)
Fixpoint run (fuel : nat) (fs : list pfun) (L : string -> list pval -> option val)
             (names : string -> option (list string)) (x : string) (ps : list pval) : option val :=
  match find_fun fs x with
  | None => L x ps
  | Some f =>
      match fuel, mapO as_val ps with
      | S n, Some vs => pcall true (run n fs L names) names f vs
      | _, _ => None
      end
  end.
