(** Specialisation of higher-order functions for SMT (smt_util.py:11-99,
    150-303 and the first half of [toSMT], 306-480), and parse_candidates
    (synthesis_common.py:95-149). *)

From Coq Require Import String List ZArith Bool Lia.
From Verif Require Import Ast Dict IrModel TopoModel.
Import ListNotations.
Local Open Scope string_scope.
Local Open Scope list_scope.

(** ir.py:94-98 [is_fn_decl_type] *)
Definition is_fn_ty (t : ty) : bool := match t with TFn _ => true | _ => false end.
(** [is_fn_decl_type(arg.type)]; a plain object has no [type] *)
Definition is_fn_arg (e : expr) : res bool :=
  match e with Atom _ => Err ExAttr | Node _ t _ => Ok (is_fn_ty t) end.

(** [arg.name()] of a function-typed argument ([Var.name], [FnDecl.name]) *)
Definition arg_name (e : expr) : res string :=
  match e with
  | Node KVar _ (Atom (PStr f) :: _) | Node KNonTerm _ (Atom (PStr f) :: _)
  | Node KFnDecl _ (Atom (PStr f) :: _) | Node KFnDeclRec _ (Atom (PStr f) :: _) | Node KTarget _ (Atom (PStr f) :: _) => Ok f
  | _ => Err ExAttr
  end.

(** smt_util.py:150-155 [filter_args] *)
Fixpoint filter_args (l : list expr) : res (list expr) :=
  match l with
  | [] => Ok []
  | a :: r => b <- is_fn_arg a ;; r' <- filter_args r ;; Ok (if b then r' else a :: r')
  end.

(** smt_util.py:158-168 [filter_fn_args] *)
Fixpoint filter_fn_args (e : expr) : res expr :=
  match e with
  | Atom a => Ok (Atom a)
  | Node k t args =>
      match k with
      | KVar | KNonTerm | KLit => Ok e
      | KCall | KTargetCall =>
          match args with
          | f :: rest =>
              rest' <- (fix go l := match l with
                         | [] => Ok []
                         | a :: r => b <- is_fn_arg a ;;
                                     if b then go r
                                     else a' <- filter_fn_args a ;; r' <- go r ;; Ok (a' :: r')
                         end) rest ;;
              mkCall f t rest'
          | [] => Err ExIndex
          end
      | _ => args' <- mapR filter_fn_args args ;; rebuild k t args'
      end
  end.

(** smt_util.py:171-192 [replace_fn_name] *)
Fixpoint replace_fn_name (new old : string) (e : expr) : res expr :=
  match e with
  | Atom a => Ok (Atom a)
  | Node k t args =>
      match k with
      | KVar | KNonTerm | KLit => Ok e
      | KCall | KTargetCall =>
          match args with
          | Atom (PStr f) :: rest =>
              rest' <- mapR (replace_fn_name new old) rest ;;
              mkCall (Atom (PStr (if String.eqb f old then new else f))) t rest'
          | _ => Err ExIndex
          end
      | _ => args' <- mapR (replace_fn_name new old) args ;; rebuild k t args'
      end
  end.

(** [any(is_fn_decl_type(arg.type) and arg.name() == in_call for arg in ..)] *)
Fixpoint any_in_call (in_call : string) (l : list expr) : res bool :=
  match l with
  | [] => Ok false
  | a :: r => b <- is_fn_arg a ;;
              if b then n <- arg_name a ;; if String.eqb n in_call then Ok true else any_in_call in_call r
              else any_in_call in_call r
  end.

(** smt_util.py:229-256 [replace_fn_name_with_in_call] *)
Fixpoint replace_with_in_call (new old in_call : string) (e : expr) : res expr :=
  match e with
  | Atom a => Ok (Atom a)
  | Node k t args =>
      match k with
      | KVar | KNonTerm | KLit => Ok e
      | KCall | KTargetCall =>
          match args with
          | Atom (PStr f) :: rest =>
              hit <- (if String.eqb f old then any_in_call in_call rest else Ok false) ;;
              rest' <- mapR (replace_with_in_call new old in_call) rest ;;
              mkCall (Atom (PStr (if hit then new else f))) t rest'
          | _ => Err ExIndex
          end
      | _ => args' <- mapR (replace_with_in_call new old in_call) args ;; rebuild k t args'
      end
  end.

(** smt_util.py:259-303 [filter_body]: drop function arguments of calls, rename
    calls of [old], turn calls of a function value into calls of [in_call] *)
Fixpoint filter_body (new old : string) (in_call : option string) (e : expr) : res expr :=
  match e with
  | Atom a => Ok (Atom a)
  | Node k t args =>
      match k with
      | KVar | KNonTerm | KLit => Ok e
      | KCall | KTargetCall =>
          match args with
          | Atom (PStr f) :: rest =>
              rest' <- (fix go l := match l with
                         | [] => Ok []
                         | a :: r => b <- is_fn_arg a ;;
                                     if b then go r
                                     else a' <- filter_body new old in_call a ;; r' <- go r ;; Ok (a' :: r')
                         end) rest ;;
              mkCall (Atom (PStr (if String.eqb old f then new else f))) t rest'
          | _ => Err ExIndex
          end
      | KCallValue =>
          match args with
          | _ :: rest =>
              rest' <- mapR (filter_body new old in_call) rest ;;
              match in_call with
              | None => Err ExValue
              | Some g => mkCall (Atom (PStr g)) t rest'
              end
          | [] => Err ExIndex
          end
      | _ => args' <- mapR (filter_body new old in_call) args ;; rebuild k t args'
      end
  end.

(** smt_util.py:11-35 [get_direct_calls], for one definition: the functions other
    than itself that it calls. *)
Fixpoint called (e : expr) : list string :=
  match e with
  | Atom _ => []
  | Node k _ args =>
      (match k, args with
       | KCall, Atom (PStr f) :: _ | KTargetCall, Atom (PStr f) :: _ => [f]
       | _, _ => []
       end) ++ flat_map called args
  end.

(** [t.name() in direct_calls.get(fn, set())] for a definition [t] of the list:
    [t] (its body or parameters) calls [fn] and is not [fn] itself. *)
Definition calls_directly (t : expr) (fn : string) : bool :=
  match t with
  | Node _ _ (Atom (PStr n) :: args) => negb (String.eqb n fn) && smem fn (flat_map called args)
  | _ => false
  end.

(** smt_util.py:51-77 [get_fn_direct_in_calls].  Simplification: the expressions
    rebuilt by [map_args] are not rebuilt here (they are thrown away; for
    well-formed expressions rebuilding does not raise). *)
Fixpoint direct_in (fn_call in_call : string) (e : expr) : list (string * string) :=
  match e with
  | Atom _ => []
  | Node k _ args =>
      match k, args with
      | KCall, Atom (PStr f) :: rest | KTargetCall, Atom (PStr f) :: rest =>
          let ho := existsb (fun a => match a with Node _ t _ => is_fn_ty t | Atom _ => false end) rest in
          flat_map (fun a => match a with
                             | Atom _ => []
                             | Node _ _ l => flat_map (direct_in f in_call) l
                             end) rest
          ++ flat_map (direct_in (if ho then f else fn_call) in_call) rest
      | KCallValue, _ => (fn_call, in_call) :: flat_map (direct_in fn_call in_call) args
      | _, _ => flat_map (direct_in fn_call in_call) args
      end
  end.

Definition pair_eqb (a b : string * string) : bool := String.eqb (fst a) (fst b) && String.eqb (snd a) (snd b).
Fixpoint dedup (l : list (string * string)) : list (string * string) :=
  match l with
  | [] => []
  | a :: r => if existsb (pair_eqb a) r then dedup r else a :: dedup r
  end.

(** smt_util.py:79-99 [get_direct_in_calls]; the sets of in-calls are iterated in
    the order of [in_calls] (for Python: any order) *)
Definition direct_in_calls (decls : list expr) (in_calls : list (string * string)) : list (string * string) :=
  flat_map (fun d =>
    match d with
    | Node _ _ (Atom (PStr n) :: args) =>
        flat_map (fun p => if String.eqb (fst p) n then flat_map (direct_in n (snd p)) args else [])
                 (dedup in_calls)
    | _ => []
    end) decls.

(** a Python dictionary keyed by pairs of strings *)
Fixpoint pset (m : list ((string * string) * string)) (k : string * string) (v : string)
  : list ((string * string) * string) :=
  match m with
  | [] => [(k, v)]
  | (k', v') :: r => if pair_eqb k k' then (k', v) :: r else (k', v') :: pset r k v
  end.

(** a copy of a definition under another name, body and parameters
    (smt_util.py:372-386, 443-457) *)
Definition copy_decl (t : expr) (name : string) (body : expr) (params : list expr) : res expr :=
  match t with
  | Node KFnDeclRec ty _ => r <- fn_return_type ty ;; mkFn KFnDeclRec (Atom (PStr name)) r body params
  | Node _ ty _ => r <- fn_return_type ty ;; mkFn KFnDecl (Atom (PStr name)) r body params
  | Atom _ => Err ExAttr
  end.
Definition decl_params (d : expr) : list expr := match d with Node _ _ (_ :: _ :: ps) => ps | _ => [] end.

Record spec_state : Type := {
  s_decls : list expr;                          (* fn_decls *)
  s_rewritten : list expr;                      (* rewritten_fn_decls *)
  s_early : list string;                        (* early_candidates_names *)
  s_renamed : list ((string * string) * string) (* in_calls_to_renamed_fn_name *)
}.
Definition spec_init : spec_state := {| s_decls := []; s_rewritten := []; s_early := []; s_renamed := [] |}.

(** smt_util.py:354-386: one direct in-call [i] of the definition [t] *)
Definition spec_direct (t : expr) (s : spec_state) (i : string * string) : res spec_state :=
  n <- decl_name t ;;
  if negb (String.eqb (fst i) n) then Ok s
  else
    let new := (n ++ "_" ++ snd i)%string in
    b <- decl_body t ;;
    b' <- filter_body new (fst i) (Some (snd i)) b ;;
    ps <- filter_args (decl_params t) ;;
    d <- copy_decl t new b' ps ;;
    Ok {| s_decls := s_decls s ++ [d]; s_rewritten := t :: s_rewritten s; s_early := snd i :: s_early s;
          s_renamed := pset (s_renamed s) (n, snd i) new |}.

Fixpoint foldR {A B} (f : A -> B -> res A) (l : list B) (a : A) : res A :=
  match l with [] => Ok a | x :: r => a' <- f a x ;; foldR f r a' end.

(** smt_util.py:344-386: the first round, over the sorted target language *)
Definition spec_first (lang : list expr) (dics : list (string * string)) (fn_calls : list string) : res spec_state :=
  foldR (fun s t =>
    if is_fn_decl t then
      n <- decl_name t ;;
      if smem n fn_calls then foldR (spec_direct t) dics s else Ok s
    else Ok s) lang spec_init.

(** smt_util.py:391-401: rename the calls in a body *)
Definition rename_calls (renamed : list ((string * string) * string)) (body : expr) : res expr :=
  foldR (fun b r => replace_with_in_call (snd r) (fst (fst r)) (snd (fst r)) b) renamed body.

(** smt_util.py:389-401: rename calls in a synthesized function *)
Definition spec_cand (renamed : list ((string * string) * string)) (cand : expr) : res expr :=
  match cand with
  | Node k t (n :: body :: ps) =>
      body' <- rename_calls renamed body ;;
      Ok (Node k t (n :: body' :: ps))
  | _ => Err ExIndex
  end.

(** smt_util.py:404-415: rename calls in an axiom *)
Definition spec_axiom (renamed : list ((string * string) * string)) (ax : expr) : res expr :=
  foldR (fun a r => a' <- replace_fn_name (snd r) (fst (fst r)) a ;; filter_fn_args a') renamed ax.

(** smt_util.py:425-458: one definition [t] of the target language, when callers of
    [fn] are looked for.  The loop variable [new_fn_name] is overwritten (line 432),
    so it is threaded through. *)
Definition spec_caller (fn in_call : string) (sn : spec_state * string) (t : expr) : res (spec_state * string) :=
  let '(s, new) := sn in
  if negb (is_fn_decl t) then Ok sn
  else if negb (calls_directly t fn) then Ok sn
  else
    n <- decl_name t ;;
    b <- decl_body t ;;
    b1 <- filter_body new fn None b ;;
    let new' := (n ++ "_" ++ new)%string in
    b2 <- filter_body new' n None b1 ;;
    ps <- filter_args (decl_params t) ;;
    d <- copy_decl t new' b2 ps ;;
    Ok ({| s_decls := s_decls s ++ [d]; s_rewritten := t :: s_rewritten s; s_early := s_early s;
           s_renamed := pset (s_renamed s) (n, in_call) new' |}, new').

(** smt_util.py:418-458: the callers of one renamed function *)
Definition spec_callers (lang : list expr) (acc : spec_state) (r : (string * string) * string) : res spec_state :=
  sn <- foldR (spec_caller (fst (fst r)) (snd (fst r))) lang (acc, snd r) ;;
  Ok (fst sn).

(** smt_util.py:388-459: the rounds; [fuel] bounds their number ([ExFuel] is not
    a Python exception). *)
Fixpoint spec_rounds (fuel : nat) (lang cands : list expr) (s : spec_state)
  : res (list expr * list expr * spec_state) :=
  match s_renamed s with
  | [] => Ok (lang, cands, s)
  | renamed =>
      match fuel with
      | O => Err ExFuel
      | S fuel' =>
          cands' <- mapR (spec_cand renamed) cands ;;
          lang' <- mapR (fun t => if is_fn_decl t then Ok t else spec_axiom renamed t) lang ;;
          s' <- foldR (spec_callers lang') renamed
                  {| s_decls := s_decls s; s_rewritten := s_rewritten s; s_early := s_early s; s_renamed := [] |} ;;
          spec_rounds fuel' lang' cands' s'
      end
  end.

(** What [toSMT] writes, in this order (smt_util.py:461-480): the definitions that
    were not specialised, early candidates, specialised definitions, axioms, the
    other candidates (these are sorted once more, line 477; left in order here). *)
Record smt_script : Type := {
  o_plain : list expr; o_early : list expr; o_copies : list expr; o_axioms : list expr; o_cands : list expr
}.

(** smt_util.py:306-480 [toSMT] up to the writing of candidates, for a sorted
    target language. *)
Definition specialise (fuel : nat) (lang cands : list expr) (in_calls : list (string * string))
  (fn_calls : list string) : res smt_script :=
  s0 <- spec_first lang (direct_in_calls (filter is_fn_decl lang) in_calls) fn_calls ;;
  out <- spec_rounds fuel lang cands s0 ;;
  let '(lang', cands', s) := out in
  cands'' <- mapR filter_fn_args cands' ;;
  names <- mapR decl_name cands'' ;;
  let early := map fst (filter (fun p => smem (snd p) (s_early s)) (combine cands'' names)) in
  let late := map fst (filter (fun p => negb (smem (snd p) (s_early s))) (combine cands'' names)) in
  let kept := filter (fun t => negb (existsb (expr_eqb t) (s_rewritten s))) lang' in
  Ok {| o_plain := filter (fun t => is_fn_decl t &&
          negb (match t with
                | Node KFnDecl _ (_ :: Atom PNone :: _) | Node KTarget _ (_ :: Atom PNone :: _) => true
                | _ => false end)) kept;
        o_early := early; o_copies := s_decls s;
        o_axioms := filter (fun t => negb (is_fn_decl t)) kept; o_cands := late |}.

(** synthesis_common.py:95-149 [parse_candidates], the pairs it adds to
    [in_calls] for an expression: (called function, function passed to it).
    The rebuilding of the expression (all calls become [Call]) and the
    extraction of lambdas (which cannot be built) are left out. *)
Fixpoint in_calls_of (known : list string) (e : expr) : list (string * string) :=
  match e with
  | Atom _ => []
  | Node k _ args =>
      flat_map (in_calls_of known) args ++
      match k, args with
      | KCall, Atom (PStr f) :: rest | KTargetCall, Atom (PStr f) :: rest =>
          flat_map (fun a => match a with
                             | Node _ (TFn _) (Atom (PStr g) :: _) => if smem g known then [(f, g)] else []
                             | _ => []
                             end) rest
      | _, _ => []
      end
  end.

(** synthesis_common.py:111-115: the known functions an expression calls, outside the
    function [self] *)
Fixpoint fn_calls_of (known : list string) (self : string) (e : expr) : list string :=
  match e with
  | Atom _ => []
  | Node k _ args =>
      flat_map (fn_calls_of known self) args ++
      match k, args with
      | KCall, Atom (PStr f) :: _ | KTargetCall, Atom (PStr f) :: _ =>
          if smem f known && negb (String.eqb f self) then [f] else []
      | _, _ => []
      end
  end.

(** synthesis_common.py:177-235, 249-261 [verify_synth_result]: collect the in-calls of
    candidates and target language, then write the script.  [known]: the keys of
    [fns_type] (target language and synthesized functions, synthesize_rosette.py:662-667).
    Lists made of sets are taken without duplicates in order of first occurrence.  The
    calls in the verification condition are left out (candidates call [f], it does not
    pass functions). *)
Definition decl_parts (d : expr) : list (string * expr) :=
  match d with Node _ _ (Atom (PStr n) :: b :: _) => [(n, b)] | _ => [] end.
Definition verify_script (fuel : nat) (lang cands : list expr) : res smt_script :=
  let parts := flat_map decl_parts (cands ++ lang) in
  let known := map fst parts in
  specialise fuel lang cands
    (dedup (flat_map (fun p => in_calls_of known (snd p)) parts))
    (nodup string_dec (flat_map (fun p => fn_calls_of known (fst p) (snd p)) parts)).
