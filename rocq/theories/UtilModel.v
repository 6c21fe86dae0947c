(** Small utilities: generated names (metalift/analysis.py), sets of IR objects
    (metalift/frontend/utils.py), conjunction helpers (metalift/vc_util.py). *)

From Coq Require Import String List ZArith Bool.
From Verif Require Import Ast Dict.
Import ListNotations.
Local Open Scope list_scope.
Local Open Scope string_scope.

(** ** VariableTracker *)

(** analysis.py:420-424 [format_with_index] *)
Definition format_with_index (a : string) (idx : nat) : string :=
  match idx with O => a | _ => a ++ "_" ++ string_of_nat idx end.

(** analysis.py:427-436: the three dictionaries of a tracker *)
Record tracker : Type := { groups : dict nat; existing : dict nat; var_to_type : dict ty }.
Definition new_tracker : tracker := {| groups := []; existing := []; var_to_type := [] |}.

(** [d[k] += 1] if [k in d], else [d[k] = 0]; the new count *)
Definition bump (d : dict nat) (k : string) : dict nat * nat :=
  match dget d k with Some n => (dset d k (n + 1), (n + 1)%nat) | None => (dset d k 0%nat, 0%nat) end.

(** analysis.py:438-443 [VariableTracker.group]; a [VariableGroup] (453-456) is
    represented by its name. *)
Definition tracker_group (t : tracker) (name : string) : tracker * string :=
  let '(g, n) := bump (groups t) name in
  ({| groups := g; existing := existing t; var_to_type := var_to_type t |}, format_with_index name n).

(** analysis.py:445-447 [VariableTracker.variable]; returns the name of the [Var] *)
Definition tracker_variable (t : tracker) (name : string) (ty0 : ty) : tracker * string :=
  ({| groups := groups t; existing := existing t; var_to_type := dset (var_to_type t) name ty0 |}, name).

(** analysis.py:458-468 [VariableGroup.variable] *)
Definition group_variable (t : tracker) (group name : string) (ty0 : ty) : tracker * string :=
  let my_name := group ++ "_" ++ name in
  let '(e, n) := bump (existing t) my_name in
  let full := format_with_index my_name n in
  ({| groups := groups t; existing := e; var_to_type := dset (var_to_type t) full ty0 |}, full).

(** analysis.py:449-450 [VariableTracker.all] *)
Definition tracker_all (t : tracker) : list (string * ty) := var_to_type t.

Local Open Scope list_scope.

(** ** ObjectSet; an object is represented by its [src] expression, and
    [Object.__eq__] (ir.py:812-815) compares these. *)

(** frontend/utils.py:20-24 [ObjectSet.__init__] and 26-32 [add]: both append the
    object unless an equal one is there. *)
Definition os_contains (s : list expr) (key : expr) : bool := existsb (fun o => expr_eqb o key) s.
Definition os_add (s : list expr) (key : expr) : list expr :=
  if existsb (fun o => expr_eqb o key) s then s else s ++ [key].
Fixpoint os_init_from (s : list expr) (objs : list expr) : list expr :=
  match objs with
  | [] => s
  | o :: r => os_init_from (if existsb (fun o' => expr_eqb o o') s then s else s ++ [o]) r
  end.
Definition os_init (objs : list expr) : list expr := os_init_from [] objs.
(** 37-42 [__sub__] *)
Definition os_sub (s o : list expr) : list expr := os_init (filter (fun x => negb (os_contains o x)) s).
(** 44-52 [__add__] *)
Definition os_plus (s o : list expr) : list expr :=
  let step := fun acc x => if os_contains acc x then acc else os_add acc x in
  fold_left step o (fold_left step s []).

(** ** conjunction and disjunction *)

(** vc_util.py:33-39 [and_exprs] and 43-49 [or_exprs] *)
Fixpoint fold_exprs (k : kind) (result : expr) (es : list expr) : res expr :=
  match es with
  | [] => Ok result
  | e :: r => result' <- mkBoolN k [result; e] ;; fold_exprs k result' r
  end.
Definition nary_exprs (k : kind) (es : list expr) : res expr :=
  match es with [] => Err ExValue | e :: r => fold_exprs k e r end.
Definition and_exprs := nary_exprs KAnd.
Definition or_exprs := nary_exprs KOr.

(** ir.py:842-857 [Bool.__init__] on an expression *)
Definition mkBoolObj (e : expr) : res expr :=
  t <- type_of e ;; if ty_eqb t TBool then Ok e else Err ExTypes.

(** vc_util.py:52-54, 57-59 [and_objects], [or_objects] *)
Definition and_objects (os : list expr) : res expr := e <- and_exprs (os_init os) ;; mkBoolObj e.
Definition or_objects (os : list expr) : res expr := e <- or_exprs (os_init os) ;; mkBoolObj e.
