(** Model of llmlift_scripts/synthesis.py: the loop that asks a language model for a
    solution and for invariants, and hands them to a verifier.

    Every definition cites the lines of /repo it models. *)

From Coq Require Import String Ascii List ZArith Bool.
From Verif Require Import Ast Dict SynthModel LmModel.
Import ListNotations.
Local Open Scope string_scope.
Local Open Scope list_scope.

(** exceptions that leave [run_llm_synthesis_algorithm]: one of the IR, "No correct
    solution found" (synthesis.py:566-567), StopIteration (419), UnboundLocalError (557), a
    verifier that could not be run or failed ([check=True], 276-278) and what the client
    of the language model raises *)
Inductive lexn : Type :=
| LPy (x : exn) | LNotFound | LStop | LUnbound | LProcess | LClient.
Inductive lres (A : Type) : Type := Done (a : A) | Raised (x : lexn).
Arguments Done {A} a.
Arguments Raised {A} x.

(** synthesis.py:56-59 *)
Inductive vmethod : Type := VNone | VRosette | VSmt.

(** What the model is asked for, synthesis.py:374, 419-425; the prompt itself is text made
    of these.  [m_earlier] are the answers shown to it as wrong (382-391, 429-438): the
    prompt alone if there are none. *)
Inductive prompt : Type := PsPrompt | InvPrompt (ps : expr).
Record msg : Type := { m_prompt : prompt; m_earlier : list string }.

(** A finished process ([subprocess.run], synthesis.py:276-278, 326-336): its exit code
    (negative if it was killed by a signal) and what it printed. *)
Record proc : Type := { p_code : Z; p_out : string }.

(** What a verification file is printed from (synthesis.py:253-270, 314-323): the DSL
    functions, the declarations and the condition. *)
Record vfile : Type := { v_dsl : list expr; v_decls : list expr; v_vc : expr }.

(** what happened so far *)
Inductive event : Type :=
| EAsk (m : msg) (reply : string)
| EVerify (f : vfile) (p : option proc).

(** The outside: what the model answers, how mypy reads a text (parser.py:526-535: its
    function definitions, or an exception), and what a verifier does with a file ([None]:
    it cannot be started).  All may depend on what happened before. *)
Record outside : Type := {
  o_llm : list event -> msg -> option string;
  o_read : string -> res (list pfun);
  o_run : list event -> vfile -> option proc }.

(** parameters of the function, synthesis.py:347-360; [c_vc] is
    [and_objects( *driver.asserts).src.simplify()] (527), [c_sigs] are the functions
    mypy reads from the DSL's text, [c_dsl] the DSL's declarations, [c_double] says
    that [loop_info] is a [DoubleLoopInfo] *)
Record config : Type := {
  c_out : expr; c_bench : string; c_sigs : list pfun; c_dsl : list expr; c_double : bool;
  c_max_ps : nat; c_max_inv : nat; c_method : vmethod; c_vc : expr }.

(** parser.py:518-551 [check_solution] on a text *)
Definition check_text (w : outside) (cfg : config) (n : nat) (sol : string) (lams : list (expr * string)) (cnt : dict nat)
  : res unit * pst :=
  match o_read w sol with
  | Err x => (Err x, {| s_decls := []; s_calls := []; s_lams := lams; s_count := cnt |})
  | Ok fs => check_solution n fs (c_sigs cfg) lams cnt
  end.

(** [s.startswith(p)] *)
Fixpoint starts (p s : string) : bool :=
  match p, s with
  | "", _ => true
  | String a p', String b s' => Ascii.eqb a b && starts p' s'
  | _, "" => false
  end.
(** [fn_decl.arguments()], [fn_decl.body() is None] *)
Definition decl_args (d : expr) : list expr := match d with Node _ _ (_ :: _ :: r) => r | _ => [] end.
Definition no_body (d : expr) : bool := match d with Node _ _ (_ :: Atom PNone :: _) => true | _ => false end.
Definition fn_typed (e : expr) : bool := match e with Node _ t _ => is_fn_ty t | Atom _ => false end.
(** synthesis.py:126-160 [process_dsl_fns_for_smt] *)
Definition smt_fns (dsl : list expr) (calls : list (string * string)) : list expr :=
  filter (fun d =>
    negb (starts "integer" (decl_name d)) &&
    negb (smem (decl_name d) ["vec_slice"; "matrix_col_slice"; "firsts"; "rests"; "matrix_transpose"; "matrix_row_slice"]) &&
    negb (existsb fn_typed (decl_args d) && negb (smem (decl_name d) (map fst calls)))) dsl.
(** synthesis.py:163-183 [process_dsl_fns_for_rosette] *)
Definition rkt_fns (dsl : list expr) : list expr :=
  filter (fun d => negb (starts "integer" (decl_name d)) && negb (String.eqb (decl_name d) "firsts") && negb (no_body d)) dsl.

(** [list(set(ds))], synthesis.py:464: all expressions have the same hash (ir.py:331-332),
    so one is left out if it equals one that is in.  Simplification: the order is that
    of the list; Python's is another, and unspecified. *)
Fixpoint py_set (l acc : list expr) : res (list expr) :=
  match l with
  | [] => Ok acc
  | e :: r =>
      q <- find_lam (map (fun k => (k, "")) acc) e ;;
      py_set r (match q with Some _ => acc | None => acc ++ [e] end)
  end.

(** synthesis.py:215-287 [verify_benchmark_rosette]: printing is not modelled here (see
    RktModel.v); BITWUZLA_PATH is set. *)
Definition verify_rosette (w : outside) (cfg : config) (decls : list expr) (calls : list (string * string)) (vc : expr) (tr : list event)
  : lres bool * list event :=
  match mapR (replace_in_calls calls) (rkt_fns (c_dsl cfg)), mapR (replace_in_calls calls) decls with
  | Ok fs, Ok ds =>
      let f := {| v_dsl := fs; v_decls := ds; v_vc := vc |} in
      let o := o_run w tr f in
      (match o with
       | None => Raised LProcess
       | Some p => if Z.eqb (p_code p) 0 then Done (String.eqb (first_line (p_out p)) "(unsat)") else Raised LProcess
       end, tr ++ [EVerify f o])
  | Err x, _ | _, Err x => (Raised (LPy x), tr)
  end.
(** synthesis.py:290-344 [verify_benchmark_smt]: [toSMT] and the axioms are not modelled
    here (see SmtModel.v) *)
Definition verify_smt (w : outside) (cfg : config) (decls : list expr) (calls : list (string * string)) (vc : expr) (tr : list event)
  : lres bool * list event :=
  let f := {| v_dsl := smt_fns (c_dsl cfg) calls; v_decls := decls; v_vc := vc |} in
  let o := o_run w tr f in
  (match o with
   | None => Raised LProcess
   | Some p => Done (negb (Z.ltb (p_code p) 0))
   end, tr ++ [EVerify f o]).
(** synthesis.py:530-555; with [VerificationMethod.NONE] nothing is assigned to [verified] *)
Definition verify_with (w : outside) (cfg : config) (decls : list expr) (calls : list (string * string)) (vc : expr) (tr : list event)
  : lres bool * list event :=
  match c_method cfg with
  | VSmt => verify_smt w cfg decls calls vc tr
  | VRosette => verify_rosette w cfg decls calls vc tr
  | VNone => (Raised LUnbound, tr)
  end.

(** synthesis.py:426-560, one invariant after another; true if one is verified.  The hack
    for the benchmark dissolve_blend_8 (467-523) is not modelled. *)
Fixpoint inv_loop (w : outside) (cfg : config) (ps : expr) (ps_decls : list expr) (ps_calls : list (string * string))
  (n : nat) (earlier : list string) (lams : list (expr * string)) (cnt : dict nat) (tr : list event) {struct n}
  : lres bool * list event :=
  match n with
  | O => (Done false, tr)
  | S n' =>
      let m := {| m_prompt := InvPrompt ps; m_earlier := earlier |} in
      match o_llm w tr m with
      | None => (Raised LClient, tr)
      | Some sol =>
          let tr := tr ++ [EAsk m sol] in
          let earlier := earlier ++ [sol] in
          match check_text w cfg (if c_double cfg then 2 else 1) sol lams cnt with
          | (Err _, s) => inv_loop w cfg ps ps_decls ps_calls n' earlier (s_lams s) (s_count s) tr
          | (Ok _, s) =>
              let calls := ps_calls ++ s_calls s in
              match (ds <- mapR (process_decl (c_out cfg) (c_bench cfg)) (s_decls s) ;;
                     all <- py_set (ps_decls ++ ds) [] ;;
                     vc <- replace_in_calls calls (c_vc cfg) ;; Ok (all, vc)) with
              | Err x => (Raised (LPy x), tr)
              | Ok (all, vc) =>
                  match verify_with w cfg all calls vc tr with
                  | (Raised x, tr) => (Raised x, tr)
                  | (Done true, tr) => (Done true, tr)
                  | (Done false, tr) => inv_loop w cfg ps ps_decls ps_calls n' earlier (s_lams s) (s_count s) tr
                  end
              end
          end
      end
  end.

(** synthesis.py:376-564, one solution after another; the one that was verified, if any *)
Fixpoint ps_loop (w : outside) (cfg : config) (n : nat) (earlier : list string) (tr : list event) {struct n}
  : lres (option string) * list event :=
  match n with
  | O => (Done None, tr)
  | S n' =>
      let m := {| m_prompt := PsPrompt; m_earlier := earlier |} in
      match o_llm w tr m with
      | None => (Raised LClient, tr)
      | Some sol =>
          let tr := tr ++ [EAsk m sol] in
          let earlier := earlier ++ [sol] in
          match check_text w cfg 1 sol [] [] with
          | (Err _, _) => ps_loop w cfg n' earlier tr
          | (Ok _, s) =>
              match mapR (process_decl (c_out cfg) (c_bench cfg)) (s_decls s) with
              | Err x => (Raised (LPy x), tr)
              | Ok ds =>
                  match find (fun d => contains "ps" (decl_name d)) ds with
                  | None => (Raised LStop, tr)
                  | Some ps =>
                      match inv_loop w cfg ps ds (s_calls s) (c_max_inv cfg) [] (s_lams s) (s_count s) tr with
                      | (Raised x, tr) => (Raised x, tr)
                      | (Done true, tr) => (Done (Some sol), tr)
                      | (Done false, tr) => ps_loop w cfg n' earlier tr
                      end
                  end
              end
          end
      end
  end.
(** synthesis.py:347-570 [run_llm_synthesis_algorithm]: the solution printed at the end *)
Definition run_llm (w : outside) (cfg : config) : lres string * list event :=
  match ps_loop w cfg (c_max_ps cfg) [] [] with
  | (Raised x, tr) => (Raised x, tr)
  | (Done (Some sol), tr) => (Done sol, tr)
  | (Done None, tr) => (Raised LNotFound, tr)
  end.
