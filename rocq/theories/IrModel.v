(** Model of the expression transformations of metalift/ir.py and
    metalift/synthesis_common.py. *)

From Coq Require Import String List ZArith Bool.
From Verif Require Import Ast Dict.
Import ListNotations.
Local Open Scope string_scope.
Set Implicit Arguments.

(** [isinstance(e, Var)]: [NonTerm] is a subclass of [Var] (ir.py:1881). *)
Definition is_var (e : expr) : bool :=
  match e with Node KVar _ _ | Node KNonTerm _ _ => true | _ => false end.
Definition is_lit (e : expr) : bool :=
  match e with Node KLit _ _ => true | _ => false end.

(** [self.args[0]] of a [Var] whose first argument is a string *)
Definition var_name (e : expr) : option string :=
  match e with
  | Node KVar _ [Atom (PStr x)] | Node KNonTerm _ [Atom (PStr x)] => Some x
  | _ => None
  end.

(* ------------------------------------------------------------------ *)
(** ** simplify *)

(** ir.py:478-482, the test [arg.args[0] == False] on a literal operand *)
Definition lit_is_false (args : list expr) : bool :=
  match args with
  | Atom a :: _ => atom_eqb a (PBool false)
  | _ => false
  end.

(** ir.py:476-483: the loop over the operands of an [And]; [None] is the early
    [return BoolLit(False)]. *)
Fixpoint and_filter (args : list expr) : option (list expr) :=
  match args with
  | [] => Some []
  | a :: r =>
      match a with
      | Node KLit _ largs => if lit_is_false largs then None else and_filter r
      | _ => match and_filter r with Some l => Some (a :: l) | None => None end
      end
  end.

(** ir.py:475-491: what [simplify] does after the arguments were simplified *)
Definition simplify_top (e : expr) : res expr :=
  match e with
  | Node KAnd _ args =>
      match and_filter args with
      | None => Ok (BoolLit false)
      | Some [] => Ok (BoolLit true)
      | Some [a] => Ok a
      | Some l => mkBoolN KAnd l
      end
  | _ => Ok e
  end.

(** ir.py:473-491 [Expr.simplify]; the lambda given to [map_args] leaves plain
    objects unchanged, which is the [Atom] case here. *)
Fixpoint simplify (e : expr) : res expr :=
  match e with
  | Atom a => Ok (Atom a)
  | Node k t args =>
      args' <- mapR simplify args ;;
      e' <- rebuild k t args' ;;
      simplify_top e'
  end.

(* ------------------------------------------------------------------ *)
(** ** counting, rewriting *)

(** ir.py:493-501 [Expr.count_variable_uses]; [into] is threaded instead of
    mutated. *)
Fixpoint count_uses (e : expr) (into : dict nat) : dict nat :=
  match e with
  | Atom _ => into
  | Node k t args =>
      if is_var e then
        match args with
        | Atom (PStr x) :: _ =>
            match dget into x with
            | Some n => dset into x (n + 1)
            | None => dset into x 1
            end
        | _ => into
        end
      else
        (fix go (l : list expr) (acc : dict nat) : dict nat :=
           match l with
           | [] => acc
           | a :: r => go r (count_uses a acc)
           end) args into
  end.

(** ir.py:533-542 [Expr.rewrite] *)
Fixpoint rewrite (m : dict expr) (e : expr) : res expr :=
  match e with
  | Atom a => Ok (Atom a)
  | Node k t args =>
      if is_var e then
        match args with
        | Atom (PStr x) :: _ =>
            match dget m x with Some e' => Ok e' | None => Ok e end
        | _ => Ok e
        end
      else
        args' <- mapR (rewrite m) args ;; rebuild k t args'
  end.

(* ------------------------------------------------------------------ *)
(** ** useless equalities *)

(** ir.py:511-518 and 519-526: record that variable [x] equals [e]; a second
    equality for the same name marks a conflict and deletes the entry, and
    [del] raises [KeyError] when there is no entry any more. *)
Definition know (into : dict expr) (conf : list string) (x : string) (e : expr)
  : res (dict expr * list string) :=
  if dmem into x || smem x conf then
    if dmem into x then Ok (ddel into x, x :: conf) else Err ExKey
  else Ok (dset into x e, conf).

(** ir.py:503-531 [Expr.collectKnowledge]; the dictionaries [into] and
    [conflicts] (only its keys matter) are threaded. *)
Fixpoint collect (ce : list string) (e : expr) (into : dict expr) (conf : list string)
  : res (dict expr * list string) :=
  match e with
  | Node KEq _ [a; b] =>
      match var_name a, var_name b with
      | Some x, oy =>
          if negb (smem x ce) then know into conf x b
          else match oy with
               | Some y => if negb (smem y ce) then know into conf y a
                           else Ok (into, conf)
               | None => Ok (into, conf)
               end
      | None, Some y => if negb (smem y ce) then know into conf y a
                        else Ok (into, conf)
      | None, None => Ok (into, conf)
      end
  | Node KAnd _ args =>
      (fix go (l : list expr) (s : dict expr * list string)
         : res (dict expr * list string) :=
         match l with
         | [] => Ok s
         | a :: r => s' <- collect ce a (fst s) (snd s) ;; go r s'
         end) args (into, conf)
  | _ => Ok (into, conf)
  end.

(** ir.py:549: the name of the [n]-th replacement variable *)
Definition useless_name (n : nat) : string := "useless_equality_" ++ string_of_nat n.

(** [new_vars.add(v)] on a Python set of expressions *)
Definition set_add (vs : list expr) (v : expr) : list expr :=
  if existsb (expr_eqb v) vs then vs else (vs ++ [v])%list.

(** [counts[x] == 1]; a missing key raises. *)
Definition count_is_one (counts : dict nat) (x : string) : res bool :=
  match dget counts x with Some n => Ok (Nat.eqb n 1) | None => Err ExKey end.

(** ir.py:548-559: the [Eq] case; [Some] is an early return, [None] falls
    through to the recursive case. *)
Definition opt_eq (counts : dict nat) (nv : list expr) (args : list expr)
  : res (option (expr * list expr)) :=
  match args with
  | [a; b] =>
      let rv := mkVar (useless_name (List.length nv)) TBool in
      ca <- match var_name a with Some x => count_is_one counts x | None => Ok false end ;;
      if ca then Ok (Some (rv, set_add nv rv)) else
      cb <- match var_name b with Some y => count_is_one counts y | None => Ok false end ;;
      if cb then Ok (Some (rv, set_add nv rv)) else
      match var_name a, var_name b with
      | Some x, Some y =>
          if String.eqb x y then Ok (Some (BoolLit true, nv)) else Ok None
      | _, _ => Ok None
      end
  | _ => Err ExIndex
  end.

(** ir.py:564-567: names whose uses are not all inside this implication.
    [counts[key]] raises [KeyError] for a name that was not counted. *)
Fixpoint elsewhere (counts : dict nat) (local : dict nat) (ce : list string)
  : res (list string) :=
  match local with
  | [] => Ok ce
  | (x, n) :: r =>
      match dget counts x with
      | None => Err ExKey
      | Some c =>
          elsewhere counts r
            (if Nat.eqb n c then filter (fun y => negb (String.eqb x y)) ce else ce)
      end
  end.

(** ir.py:574-577: drop rewrites to non-variables that would be duplicated *)
Definition prune_rewrites (rhs : dict nat) (m : dict expr) : dict expr :=
  filter (fun p =>
            if is_var (snd p) then true
            else match dget rhs (fst p) with
                 | Some n => negb (Nat.ltb 1 n)
                 | None => true
                 end) m.

(** ir.py:560-577: the [Implies] case: the rewritten implication *)
Definition opt_implies (counts : dict nat) (e : expr) (args : list expr) : res expr :=
  match args with
  | [a; b] =>
      ce <- elsewhere counts (count_uses e []) (dkeys counts) ;;
      kc <- collect ce a [] [] ;;
      let m := prune_rewrites (count_uses b []) (fst kc) in
      rewrite m e
  | _ => Err ExIndex
  end.

Section MapRS.
  Variables (S A B : Type) (f : A -> S -> res (B * S)).
  (** a list comprehension whose element expression updates shared state *)
  Fixpoint mapRS (l : list A) (s : S) : res (list B * S) :=
    match l with
    | [] => Ok ([], s)
    | a :: r => bs <- f a s ;; rs <- mapRS r (snd bs) ;;
                Ok (fst bs :: fst rs, snd rs)
    end.
End MapRS.

(** ir.py:544-583 [Expr.optimize_useless_equality].  The recursion goes into the
    arguments of the rewritten expression, so it is bounded by [fuel]. *)
Fixpoint optimize (fuel : nat) (counts : dict nat) (e : expr) (nv : list expr)
  : res (expr * list expr) :=
  match fuel with
  | O => Err ExFuel
  | S fuel' =>
      match e with
      | Atom a => Ok (Atom a, nv)
      | Node k t args =>
          early <- match k with
                   | KEq => opt_eq counts nv args
                   | _ => Ok None
                   end ;;
          match early with
          | Some r => Ok r
          | None =>
              e1 <- match k with
                    | KImplies => opt_implies counts e args
                    | _ => Ok e
                    end ;;
              match e1 with
              | Atom _ => Err ExAttr
              | Node k1 t1 args1 =>
                  rs <- mapRS (optimize fuel' counts) args1 nv ;;
                  e2 <- rebuild k1 t1 (fst rs) ;;
                  e3 <- simplify e2 ;;
                  Ok (e3, snd rs)
              end
          end
      end
  end.

(** synthesize_cvc5.py:258-260 (and synthesize_rosette.py:581-583): one round on
    a verification condition with its own counts *)
Definition optimize_vc (fuel : nat) (vc : expr) (nv : list expr) : res (expr * list expr) :=
  optimize fuel (count_uses vc []) vc nv.

(* ------------------------------------------------------------------ *)
(** ** sharing of repeated choices *)

(** position of the first element for which [p] holds *)
Fixpoint find_index {A} (p : A -> bool) (l : list A) : option nat :=
  match l with
  | [] => None
  | a :: r => if p a then Some O else option_map S (find_index p r)
  end.

Fixpoint set_nth {A} (n : nat) (x : A) (l : list A) : list A :=
  match n, l with
  | _, [] => []
  | O, _ :: r => x :: r
  | S n', a :: r => a :: set_nth n' x r
  end.

(** ir.py:191-210 [Expr.findCommonExprs] *)
Fixpoint find_common (e : expr) (cnts : list (expr * nat)) : list (expr * nat) :=
  match e with
  | Atom _ => cnts
  | Node _ _ args =>
      match find_index (fun p => expr_eqb e (fst p)) cnts with
      | Some i => set_nth i (e, S (snd (nth i cnts (e, O)))) cnts
      | None =>
          (fix go (l : list expr) (acc : list (expr * nat)) :=
             match l with
             | [] => acc
             | a :: r => go r (find_common a acc)
             end) args (cnts ++ [(e, 1%nat)])%list
      end
  end.

(** ir.py:278-282: the name of a shared choice; Rosette references are calls. *)
Definition choice_ref (rosette : bool) (i : nat) : string :=
  if rosette then "(v" ++ string_of_nat i ++ ")" else "v" ++ string_of_nat i.

(** ir.py:225-275: rebuilding in [replaceExprs]: as in [map_args], but function
    declarations and axioms are not supported. *)
Definition rebuild_replace (k : kind) (t : ty) (args : list expr) : res expr :=
  match k with
  | KFnDeclRec | KFnDecl | KTarget | KAxiom | KAssert | KConstraint | KSynth => Err ExNYI
  | _ => rebuild k t args
  end.

(** ir.py:212-282 [Expr.replaceExprs] with [skipTop = False] *)
Fixpoint replace_exprs (rosette : bool) (common : list expr) (e : expr) : res expr :=
  match e with
  | Atom a => Ok (Atom a)
  | Node k t args =>
      match find_index (expr_eqb e) common with
      | Some i => Ok (mkVar (choice_ref rosette i) t)
      | None => args' <- mapR (replace_exprs rosette common) args ;;
                rebuild_replace k t args'
      end
  end.

(** ir.py:212-282 with [skipTop = True] *)
Definition replace_exprs_skip (rosette : bool) (common : list expr) (e : expr) : res expr :=
  match e with
  | Atom a => Ok (Atom a)
  | Node k t args => args' <- mapR (replace_exprs rosette common) args ;;
                     rebuild_replace k t args'
  end.

Definition is_choose (e : expr) : bool :=
  match e with Node KChoose _ _ => true | _ => false end.

(** ir.py:2858-2872 (and 2902-2916) in [Synth.to_rosette] / [Synth.toSMT]: the
    rewritten body and the definitions of the shared choices. *)
Definition share_choices (rosette : bool) (body : expr) : res (expr * list expr) :=
  let common := filter is_choose (map fst (find_common body [])) in
  body' <- replace_exprs rosette common body ;;
  defs <- mapR (replace_exprs_skip rosette common) common ;;
  Ok (body', defs).

(* ------------------------------------------------------------------ *)
(** ** chooseArbitrarily *)

(** ir.py:186-189 [Expr.chooseArbitrarily] and 3004-3005, the override in
    [Choose] that returns its first argument as it is *)
Fixpoint choose_arbitrarily (e : expr) : res expr :=
  match e with
  | Atom a => Ok (Atom a)
  | Node KChoose _ args => match args with a :: _ => Ok a | [] => Err ExIndex end
  | Node k t args => args' <- mapR choose_arbitrarily args ;; rebuild k t args'
  end.

(* ------------------------------------------------------------------ *)
(** ** pruning of synthesized functions *)

(** A table of function definitions: name, parameters, body
    (the dictionary [all_fns] of synthesis_common.py:22). *)
Record fndef : Type := { fn_params : list expr; fn_body : expr; fn_kind : kind; fn_ret : ty }.

(** synthesis_common.py:28-50 [prune_ite].  [expr.c().map_args(prune_ite)] maps
    over the arguments of the condition (not over the condition). *)
Fixpoint prune_ite (fns : dict fndef) (e : expr) : res expr :=
  match e with
  | Atom a => Ok (Atom a)
  | Node k t args =>
      match k with
      | KVar | KNonTerm | KLit => Ok e
      | KIte =>
          match args with
          | [c; a; b] =>
              cond <- match c with
                      | Atom _ => Err ExAttr
                      | Node k' t' args' => r <- mapR (prune_ite fns) args' ;; rebuild k' t' r
                      end ;;
              let then_ := match a with
                      | Atom _ => Err ExAttr
                      | Node k' t' args' => r <- mapR (prune_ite fns) args' ;; rebuild k' t' r
                      end in
              let else_ := match b with
                      | Atom _ => Err ExAttr
                      | Node k' t' args' => r <- mapR (prune_ite fns) args' ;; rebuild k' t' r
                      end in
              let same := args' <- mapR (prune_ite fns) args ;; rebuild k t args' in
              if expr_eqb cond (BoolLit true) then then_
              else if expr_eqb cond (BoolLit false) then else_
              else match cond with
                   | Node KCall _ (Atom (PStr f) :: _)
                   | Node KTargetCall _ (Atom (PStr f) :: _) =>
                       match dget fns f with
                       | Some d =>
                           if expr_eqb (fn_body d) (BoolLit true) then then_
                           else if expr_eqb (fn_body d) (BoolLit false) then else_
                           else same
                       | None => same
                       end
                   | _ => same
                   end
          | _ => Err ExIndex
          end
      | _ => args' <- mapR (prune_ite fns) args ;; rebuild k t args'
      end
  end.

(** synthesis_common.py:52-55: every function of the table with its body and
    parameters mapped. *)
Definition prune_fn (fns : dict fndef) (d : fndef) : res fndef :=
  b <- prune_ite fns (fn_body d) ;;
  ps <- mapR (prune_ite fns) (fn_params d) ;;
  Ok {| fn_params := ps; fn_body := b; fn_kind := fn_kind d; fn_ret := fn_ret d |}.

Definition prune_fn_decls (fns : dict fndef) : res (dict fndef) :=
  mapR (fun p => d <- prune_fn fns (snd p) ;; Ok (fst p, d)) fns.

(* ------------------------------------------------------------------ *)
(** ** names of called functions *)

(** synthesis_common.py:61-66 [get_fn_names]: add the callee of a call, then
    visit the arguments through [map_args]. *)
Fixpoint get_fn_names (e : expr) : res (expr * list string) :=
  match e with
  | Atom a => Ok (Atom a, [])
  | Node k t args =>
      let own := match k, args with
                 | KCall, Atom (PStr f) :: _ | KTargetCall, Atom (PStr f) :: _ => [f]
                 | _, _ => []
                 end in
      rs <- mapR get_fn_names args ;;
      e' <- rebuild k t (map fst rs) ;;
      Ok (e', (own ++ concat (map snd rs))%list)
  end.

(** synthesis_common.py:58-71 [get_used_fn_names]: the outer [map_args] is
    applied to the declaration, so only its arguments are visited. *)
Definition get_used_fn_names (decls : list expr) : res (list string) :=
  rs <- mapR (fun d => match d with
                       | Atom _ => Err ExAttr
                       | Node k t args =>
                           rs <- mapR get_fn_names args ;;
                           _ <- rebuild k t (map fst rs) ;;
                           Ok (concat (map snd rs))
                       end) decls ;;
  Ok (concat rs).
