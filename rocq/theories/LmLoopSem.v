(** What is said about the loop of llmlift_scripts/synthesis.py: predicates on the list of
    everything that happened. *)

From Coq Require Import String List ZArith Bool.
From Verif Require Import Ast Dict SynthModel LmModel LmLoop.
Import ListNotations.
Local Open Scope string_scope.
Local Open Scope list_scope.

(** the model was asked [m] and answered [r] *)
Definition asked (tr : list event) (m : msg) (r : string) : Prop := In (EAsk m r) tr.
(** how often the model was asked for a solution, for an invariant *)
Definition is_ps_ask (e : event) : bool := match e with EAsk m _ => match m_prompt m with PsPrompt => true | _ => false end | _ => false end.
Definition is_inv_ask (e : event) : bool := match e with EAsk m _ => match m_prompt m with InvPrompt _ => true | _ => false end | _ => false end.
Definition count (p : event -> bool) (tr : list event) : nat := List.length (filter p tr).

(** all the solutions so far; all the invariants since the last solution *)
Definition solutions (tr : list event) : list string :=
  flat_map (fun e => match e with EAsk m r => match m_prompt m with PsPrompt => [r] | _ => [] end | _ => [] end) tr.
Definition invariants (tr : list event) : list string :=
  fold_left (fun l e => match e with EAsk m r => match m_prompt m with PsPrompt => [] | _ => l ++ [r] end | _ => l end) tr [].
(** every question shows exactly the answers given before to the same question *)
Definition shown (tr : list event) : Prop :=
  forall a m r b, tr = a ++ EAsk m r :: b ->
    m_earlier m = match m_prompt m with PsPrompt => solutions a | InvPrompt _ => invariants a end.

(** The names of lambdas that were found, before and after reading any number of texts one
    after another, whether they were accepted or not *)
Definition lam_names : Type := list (expr * string) * dict nat.
Definition names_of (s : pst) : lam_names := (s_lams s, s_count s).
Inductive after (w : outside) (cfg : config) : lam_names -> lam_names -> Prop :=
| after_none l : after w cfg l l
| after_text l n t r s l' : check_text w cfg n t (fst l) (snd l) = (r, s) -> after w cfg (names_of s) l' -> after w cfg l l'.

(** [sol] and [inv] are texts that the parser accepts, one after the other, in states [s]
    and [s'], and the declarations and calls found in them are [ds] and [calls]; the
    invariant is read with the names that reading the solution (and other invariants) gave
    to lambdas *)
Definition accepted (w : outside) (cfg : config) (n : nat) (t : string) (l : lam_names) (s : pst) (ds : list expr) (calls : list (string * string)) : Prop :=
  check_text w cfg n t (fst l) (snd l) = (Ok tt, s) /\ mapR (process_decl (c_out cfg) (c_bench cfg)) (s_decls s) = Ok ds /\ calls = s_calls s.
Definition solution_of (w : outside) (cfg : config) (sol : string) (s : pst) (ds : list expr) (calls : list (string * string)) : Prop :=
  accepted w cfg 1 sol ([], []) s ds calls.
Definition invariant_of (w : outside) (cfg : config) (s : pst) (inv : string) (s' : pst) (ds : list expr) (calls : list (string * string)) : Prop :=
  exists l, after w cfg (names_of s) l /\ accepted w cfg (if c_double cfg then 2 else 1) inv l s' ds calls.
(** the functions a text defines *)
Definition defined_in (w : outside) (t : string) : list string := match o_read w t with Ok fs => map f_name fs | Err _ => [] end.

(** [f] is the file with the declarations of the solution and of the invariant, in which
    functions that are arguments are names, and with the verification condition *)
Definition same (e e' : expr) : Prop := eq_expr e e' = Ok true.
Definition rosette_file (cfg : config) (ds1 ds2 : list expr) (calls : list (string * string)) (f : vfile) : Prop :=
  (forall d', In d' (v_decls f) -> exists d, In d (ds1 ++ ds2) /\ replace_in_calls calls d = Ok d') /\
  (forall d, In d (ds1 ++ ds2) -> exists k d', (k = d \/ same k d) /\ In k (ds1 ++ ds2) /\ replace_in_calls calls k = Ok d' /\ In d' (v_decls f)) /\
  (forall d, In d (c_dsl cfg) -> starts "integer" (decl_name d) = false -> decl_name d <> "firsts" -> no_body d = false ->
     exists d', replace_in_calls calls d = Ok d' /\ In d' (v_dsl f)) /\
  replace_in_calls calls (c_vc cfg) = Ok (v_vc f).
