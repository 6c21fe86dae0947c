(** Ordering of target-language definitions (smt_util.py:102-147). *)

From Coq Require Import String List ZArith Bool Lia.
From Verif Require Import Ast Dict.
Import ListNotations.
Local Open Scope string_scope.
Local Open Scope list_scope.

(** [isinstance(f, FnDeclRecursive) or isinstance(f, FnDecl)] (smt_util.py:122;
    [Target] is a subclass of [FnDecl]) *)
Definition is_fn_decl (d : expr) : bool :=
  match d with Node KFnDeclRec _ _ | Node KFnDecl _ _ | Node KTarget _ _ => true | _ => false end.

(** ir.py:3021, 3163: [name()] is [args[0]], [body()] is [args[1]] *)
Definition decl_name (d : expr) : res string :=
  match d with
  | Node _ _ (Atom (PStr f) :: _) => Ok f
  | Node _ _ (_ :: _) => Err ExTypes
  | _ => Err ExIndex
  end.
Definition decl_body (d : expr) : res expr :=
  match d with Node _ _ (_ :: b :: _) => Ok b | _ => Err ExIndex end.

(** smt_util.py:102-110 [get_dependent_fn_names] *)
Fixpoint dependent_fn_names (names : list string) (e : expr) : list string :=
  match e with
  | Atom (PStr s) => if smem s names then [s] else []
  | Atom _ => []
  | Node _ _ args => flat_map (dependent_fn_names names) args
  end.

(** smt_util.py:130-140: the edges (used function, user) *)
Definition decl_edges (names : list string) (d : expr) : res (list (string * string)) :=
  f <- decl_name d ;;
  b <- decl_body d ;;
  Ok (map (fun g => (g, f)) (filter (fun g => negb (String.eqb f g)) (dependent_fn_names names b))).

Section Sort.
  (** [list(nx.topological_sort(graph))] for the graph with these edges;
      [None]: NetworkXUnfeasible *)
  Variable nx_sort : list (string * string) -> option (list string).
  (** the order in which a set of strings is iterated *)
  Variable set_order : list string -> list string.

  (** [fn_name_to_decl] (smt_util.py:145): the last definition of a name wins *)
  Definition name_to_decl (ds : list expr) (names : list string) : dict expr :=
    fold_left (fun acc p => dset acc (fst p) (snd p)) (combine names ds) [].

  Definition lookup_decl (m : dict expr) (f : string) : res expr :=
    match dget m f with Some d => Ok d | None => Err ExKey end.

  (** smt_util.py:113-147 [topological_sort] *)
  Definition topological_sort (ds : list expr) : res (list expr) :=
    let fns := filter is_fn_decl ds in
    let axioms := filter (fun d => negb (is_fn_decl d)) ds in
    names <- mapR decl_name fns ;;
    edges <- mapR (decl_edges names) fns ;;
    match nx_sort (concat edges) with
    | None => Err ExValue
    | Some ordered =>
        let independent := set_order (nodup string_dec (filter (fun f => negb (smem f ordered)) names)) in
        let m := name_to_decl fns names in
        a <- mapR (lookup_decl m) ordered ;;
        b <- mapR (lookup_decl m) independent ;;
        Ok (a ++ b ++ axioms)
    end.
End Sort.
