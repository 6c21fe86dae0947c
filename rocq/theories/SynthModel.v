(** The control flow of synthesis and verification: verify_synth_result, the
    polling loop of synthesize_rosette.py, the reading loop of
    synthesize_cvc5.py and the outer search of the tenspiler tests.

    Everything that comes from outside (file contents, exit codes, output of
    the solvers, and the exceptions that reading or generating text can raise)
    is a parameter that may answer differently at every iteration. *)

From Coq Require Import String List ZArith Bool Ascii Lia.
From Verif Require Import Ast Dict IrModel.
Import ListNotations.
Local Open Scope string_scope.
Local Open Scope Z_scope.

(* ------------------------------------------------------------------ *)
(** ** Python strings *)

(** [sub in s] *)
Definition contains (sub s : string) : bool :=
  match String.index 0 sub s with Some _ => true | None => false end.

Definition nl : ascii := Ascii.ascii_of_nat 10.

(** [s.split("\n")] *)
Fixpoint split_lines (s : string) : list string :=
  match s with
  | EmptyString => [""]
  | String c r =>
      if Ascii.eqb c nl then "" :: split_lines r
      else match split_lines r with
           | l :: ls => String c l :: ls
           | [] => [String c ""]
           end
  end.

(** [s.split("\n")[0]] (the list is never empty) *)
Definition first_line (s : string) : string := hd "" (split_lines s).

(** [c.isspace()] for the characters below 128 *)
Definition is_space (c : ascii) : bool :=
  let n := nat_of_ascii c in Nat.eqb n 32 || (Nat.leb 9 n && Nat.leb n 13) || (Nat.leb 28 n && Nat.leb n 31).
Fixpoint lstrip (s : string) : string :=
  match s with String c r => if is_space c then lstrip r else s | EmptyString => "" end.
Fixpoint rstrip (s : string) : string :=
  match s with
  | EmptyString => ""
  | String c r => match rstrip r with
                  | EmptyString => if is_space c then "" else String c ""
                  | r' => String c r'
                  end
  end.
(** [s.strip()] *)
Definition strip (s : string) : string := lstrip (rstrip s).

(* ------------------------------------------------------------------ *)
(** ** Outcomes *)

(** synthesis_common.py:14-19, exceptions.py:1; [OtherExn] is any other Python
    exception. *)
Inductive pyexn : Type := SynthesisFailed | VerificationFailed | CVC5Unsupported | OtherExn.

Inductive ran (A : Type) : Type := Returned (a : A) | Raised (x : pyexn).
Arguments Returned {A} a.
Arguments Raised {A} x.

Definition of_res {A} (r : res A) : ran A :=
  match r with Ok a => Returned a | Err _ => Raised OtherExn end.

(** the candidates: name to definition (synthesize_rosette.py:708-713) *)
Definition cands : Type := dict fndef.

(** a finished external process; decoding errors are exceptions of the caller *)
Record proc : Type := { returncode : Z; stdout : string }.

(* ------------------------------------------------------------------ *)
(** ** verify_synth_result *)

(** rosette_translator.py:258-275: parameters of [to_rosette] without and with
    default value. *)
Definition to_rosette_required : list string :=
  ["basename"; "filename"; "target_lang"; "vars"; "inv_and_ps"; "preds"; "vc";
   "loop_and_ps_info"; "rounds_to_guess"; "fns_to_guess"; "fn_defs_to_exclude";
   "unbounded_ints"; "list_bound"].
Definition to_rosette_optional : list string := ["write_choices_to"; "verify_mode"; "uninterp_fns"].

(** Python's binding of a call with [n] positional arguments and keywords [kw]:
    enough arguments, no argument given twice, no unknown keyword. *)
Definition py_binds (required optional : list string) (n : nat) (kw : list string) : bool :=
  let pos := firstn n (required ++ optional) in
  Nat.leb n (List.length (required ++ optional)) &&
  forallb (fun k => smem k (required ++ optional) && negb (smem k pos)) kw &&
  forallb (fun p => smem p pos || smem p kw) required.

(** synthesis_common.py:172-185: the call of [to_rosette] has nine positional
    arguments and two keywords. *)
Definition verify_rosette_call_binds : bool :=
  py_binds to_rosette_required to_rosette_optional 9 ["list_bound"; "verify_mode"].

(** synthesis_common.py:152-298 [verify_synth_result].  [racket]: writing the
    Racket file and running it; [cvc]: lines 187-262 (substituting, writing the
    SMT file) and running cvc5.  A [TypeError] is raised when the call of
    [to_rosette] does not bind.  Printing (263-273) is left out. *)
Definition verify_synth_result (use_rosette : bool) (racket cvc : ran proc) : ran string :=
  if use_rosette then
    if verify_rosette_call_binds then
      match racket with
      | Raised x => Raised x
      | Returned p => if String.eqb (first_line (stdout p)) "(unsat)" then Returned "unsat" else Returned "SAT/UNKNOWN"
      end
    else Raised OtherExn
  else
    match cvc with
    | Raised x => Raised x
    | Returned p =>
        if returncode p <? 0 then Returned "SAT/UNKNOWN" else Returned (first_line (stdout p))
    end.

(* ------------------------------------------------------------------ *)
(** ** Reading a solution file *)

(** synthesize_rosette.py:78-81: the lines up to the next one with a "/" *)
Fixpoint until_slash (ls : list string) : string :=
  match ls with
  | [] => ""
  | l :: r => if contains "/" l then "" else l ++ until_slash r
  end.

(** synthesize_rosette.py:72-85 [parse_output]; the assignment to the loop
    variable at line 82 has no effect. *)
Fixpoint parse_output (ls : list string) : list string :=
  match ls with
  | [] => []
  | l :: r => if contains "define" l then (l ++ until_slash r) :: parse_output r else parse_output r
  end.

(** a function to synthesize ([Synth.args] = name, grammar, variables) *)
Record synth_fun : Type := { sf_name : string; sf_grammar : expr; sf_vars : list expr }.

(** synthesize_rosette.py:88-91 [convert_expr] *)
Definition convert_expr (e : expr) : res expr :=
  match e with
  | Node KCall _ (Atom (PStr "list_eq") :: a :: b :: _)
  | Node KTargetCall _ (Atom (PStr "list_eq") :: a :: b :: _) => mkEq [a; b]
  | Node KCall _ (Atom (PStr "list_eq") :: _)
  | Node KTargetCall _ (Atom (PStr "list_eq") :: _) => Err ExIndex
  | _ => Ok e
  end.

(** synthesize_rosette.py:660-671: every definition of a function to synthesize
    is read; [read n r] is [to_expr(generate_ast(r[r.find("("):])[0], ..)] with
    the types of the variables of [n]. *)
Definition candidate_dict (read : string -> string -> res expr) (names output : list string)
  : res (dict expr) :=
  fold_left (fun acc n =>
    fold_left (fun acc r =>
      d <- acc ;;
      if contains ("define (" ++ n ++ " ") r || contains ("define (" ++ n ++ ")") r
      then e <- read n r ;; Ok (dset d n e) else Ok d) output acc)
    names (Ok []).

(** synthesize_rosette.py:678-704: the definition of one function; a function
    that is not in the output gets an arbitrary choice. *)
Definition candidate (d : dict expr) (s : synth_fun) : res (string * fndef) :=
  e <- match dget d (sf_name s) with
       | Some e => Ok e
       | None => e <- choose_arbitrarily (sf_grammar s) ;; map_args convert_expr e
       end ;;
  t <- type_of (sf_grammar s) ;;
  Ok (sf_name s, {| fn_params := sf_vars s; fn_body := e; fn_kind := KFnDeclRec; fn_ret := t |}).

(** synthesize_rosette.py:638-713: from the lines of a solution file to the
    pruned candidates.  [None]: the first line is not "#t". *)
Definition read_solution (read : string -> string -> res expr) (names : list string)
  (funs : list synth_fun) (lines : list string) : option (res cands) :=
  match lines with
  | "#t" :: rest =>
      Some (d <- candidate_dict read names (parse_output rest) ;;
            cs <- mapR (candidate d) funs ;;
            prune_fn_decls (fold_left (fun acc p => dset acc (fst p) (snd p)) cs []))
  | _ => None
  end.

(* ------------------------------------------------------------------ *)
(** ** The polling loop *)

(** rosette_translator.py:142-236 [generate_synth]: the files that the
    generated Racket program writes. *)
Definition solution_name (basename : string) (i : Z) : string := basename ++ "_sol" ++ string_of_Z i.
Definition solution_files (basename : string) (rounds : Z) (has_excluded : bool) : list string :=
  if has_excluded then [basename ++ "_sol"]
  else map (fun i => solution_name basename (Z.of_nat i)) (seq 0 (S (Z.to_nat rounds))).

(** What the outside world answers at iteration [t] of the loop. *)
Record world : Type := {
  w_poll : nat -> option Z;                          (* proc_synthesis.poll() *)
  w_file : nat -> string -> option string;           (* contents of a file, if it exists *)
  w_read : nat -> string -> string -> res expr;      (* to_expr on a definition *)
  w_cvc : nat -> Z -> cands -> ran proc;             (* the SMT file with this uid and its solver run *)
  w_racket : nat -> cands -> ran proc                (* the Racket verification run *)
}.

(** The arguments of [synthesize] that matter here. *)
Record args : Type := {
  a_basename : string; a_rounds : Z; a_no_verify : bool;
  a_names : list string; a_funs : list synth_fun
}.

Section Loop.
  Variables (a : args) (w : world).

  (** synthesize_rosette.py:715-755: verification of one candidate *)
  Definition check (t : nat) (i : Z) (cs : cands) : ran string :=
    if a_no_verify a then Returned "unsat"
    else match verify_synth_result false (w_racket w t cs) (w_cvc w t i cs) with
         | Raised CVC5Unsupported => verify_synth_result true (w_racket w t cs) (w_cvc w t i cs)
         | r => r
         end.

  (** synthesize_rosette.py:642-798: one round with the contents [text] of the
      solution file number [i = last + 1]; [None]: go on with the next one. *)
  Definition round (t : nat) (i : Z) (text : string) : option (ran cands) :=
    match read_solution (w_read w t) (a_names a) (a_funs a) (split_lines text) with
    | None => Some (Raised SynthesisFailed)
    | Some (Err _) => Some (Raised OtherExn)
    | Some (Ok cs) =>
        match check t i cs with
        | Raised x => Some (Raised x)
        | Returned v =>
            if String.eqb v "unsat" then Some (Returned cs)
            else if i =? a_rounds a then Some (Raised VerificationFailed)
            else None
        end
    end.

  (** synthesize_rosette.py:631-805: the loop; [last] is
      [last_processed_sol_idx].  The outer [option] is [None] when [fuel]
      iterations did not suffice, the inner one when [synthesize] returns
      [None] by reaching its end.  After the loop, line 802-805: a non-zero
      exit code raises ([err_synth] does not exist, so both ways raise
      something other than SynthesisFailed unless the file started with "#f",
      which raised before). *)
  Fixpoint poll_loop (fuel t : nat) (last : Z) : option (ran (option cands)) :=
    match fuel with
    | O => None
    | S fuel' =>
        let code := w_poll w t in
        if (match code with None => true | Some _ => false end) || (last + 1 <? a_rounds a + 1) then
          match w_file w t (solution_name (a_basename a) (last + 1)) with
          | None => poll_loop fuel' (S t) last
          | Some text =>
              match round t (last + 1) text with
              | Some (Returned cs) => Some (Returned (Some cs))
              | Some (Raised x) => Some (Raised x)
              | None => poll_loop fuel' (S t) (last + 1)
              end
          end
        else match code with
             | Some 0 => Some (Returned None)
             | _ => Some (Raised OtherExn)
             end
    end.

  (** synthesize_rosette.py:544-805 [synthesize], from line 620 on (the part
      before writes files and starts the process). *)
  Definition synthesize_rosette (fuel : nat) : option (ran (option cands)) := poll_loop fuel 0 (-1).
End Loop.

(* ------------------------------------------------------------------ *)
(** ** The SyGuS loop *)

(** synthesize_cvc5.py:293-346: lines of cvc5's output, the candidates read
    from a line, and the verification. *)
Record sygus_world : Type := {
  g_line : nat -> string;            (* readline(); the empty string at the end of the output *)
  g_poll : nat -> option Z;          (* proc.poll() *)
  g_read : nat -> string -> res cands;   (* generateCandidates *)
  g_cvc : nat -> cands -> ran proc
}.

Section Sygus.
  Variable w : sygus_world.
  (** synthesize_cvc5.py:296-343; [cur] is [candidatesSMT], unbound before the
      first guess (UnboundLocalError). *)
  Fixpoint sygus_loop (fuel t : nat) (cur : option cands) : option (ran cands) :=
    match fuel with
    | O => None
    | S fuel' =>
        let line := g_line w t in
        if contains "fail" line then Some (Raised SynthesisFailed)
        else if contains "sygus-candidate" line then
          match g_read w t line with
          | Err _ => Some (Raised OtherExn)
          | Ok cs => sygus_loop fuel' (S t) (Some cs)
          end
        else if String.eqb (strip line) "(" then
          match cur with
          | None => Some (Raised OtherExn)
          | Some cs =>
              match verify_synth_result false (Raised OtherExn) (g_cvc w t cs) with
              | Raised x => Some (Raised x)
              | Returned v => if String.eqb v "unsat" then Some (Returned cs) else Some (Raised VerificationFailed)
              end
          end
        else match g_poll w t with
             | Some c => if 0 <? c then Some (Raised SynthesisFailed) else sygus_loop fuel' (S t) cur
             | None => sygus_loop fuel' (S t) cur
             end
    end.

  Definition synthesize_sygus (fuel : nat) : option (ran cands) := sygus_loop fuel 0 None.
End Sygus.

(* ------------------------------------------------------------------ *)
(** ** The outer search *)

(** One call of [driver.synthesize] in the outer search. *)
Record attempt : Type := { t_relaxed : bool; t_bound : Z; t_no_verify : bool }.

Section Search.
  (** outcome of [driver.synthesize] for an attempt *)
  Variable call : attempt -> ran cands.
  (** whether writing the NumPy code afterwards (synthesis_utils.py:76-87)
      succeeds; it raises neither SynthesisFailed nor VerificationFailed *)
  Variable emit : cands -> bool.

  Definition after (cs : cands) : ran cands :=
    if emit cs then Returned cs else Raised OtherExn.

  (** tests/llvm/tenspiler/utils/synthesis_utils.py:37-105
      [run_synthesis_with_bound]; the relaxed call does not pass [no_verify],
      whose default is False (synthesize_rosette.py:554).  The calls made are
      returned with their outcomes. *)
  Definition with_bound (bound : Z) (has_relaxed no_verify : bool) : list (attempt * ran cands) * ran cands :=
    let strict := {| t_relaxed := false; t_bound := bound; t_no_verify := no_verify |} in
    match call strict with
    | Returned cs => ([(strict, Returned cs)], after cs)
    | Raised SynthesisFailed =>
        if negb has_relaxed then ([(strict, Raised SynthesisFailed)], Raised SynthesisFailed)
        else
          let relaxed := {| t_relaxed := true; t_bound := bound; t_no_verify := false |} in
          let r := call relaxed in
          ([(strict, Raised SynthesisFailed); (relaxed, r)],
           match r with Returned cs => after cs | Raised x => Raised x end)
    | Raised x => ([(strict, Raised x)], Raised x)
    end.

  (** synthesis_utils.py:108-136 [run_synthesis_algorithm] *)
  Fixpoint search (fuel : nat) (bound : Z) (has_relaxed no_verify : bool)
    : option (list (attempt * ran cands) * ran cands) :=
    match fuel with
    | O => None
    | S fuel' =>
        let '(log, r) := with_bound bound has_relaxed no_verify in
        match r with
        | Raised VerificationFailed =>
            match search fuel' (bound + 1) has_relaxed no_verify with
            | Some (log', r') => Some ((log ++ log')%list, r')
            | None => None
            end
        | _ => Some (log, r)
        end
    end.
End Search.

(** synthesis_utils.py:115: the default of [no_verify] in
    [run_synthesis_algorithm] *)
Definition search_no_verify_default : bool := true.
