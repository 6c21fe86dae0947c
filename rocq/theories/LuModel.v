(** Taking apart the answers of the language model, and the arguments of invariants:
    llmlift_scripts/utils.py.  A text is a [string] of characters; other characters than
    those of [ascii] are not modelled. *)

From Coq Require Import String Ascii List Bool Arith.
From Verif Require Import Ast.
Import ListNotations.
Local Open Scope string_scope.

(** ** regular expressions *)

(** [s] without the prefix [p], if it has it *)
Fixpoint after (p s : string) : option string :=
  match p, s with
  | EmptyString, _ => Some s
  | String a p', String b s' => if Ascii.eqb a b then after p' s' else None
  | String _ _, EmptyString => None
  end.

(** [(.*?)p] with DOTALL (utils.py:30): the shortest beginning before [p], and the rest *)
Fixpoint until (p s : string) : option (string * string) :=
  match after p s with
  | Some r => Some ("", r)
  | None =>
      match s with
      | EmptyString => None
      | String c s' => match until p s' with Some (g, r) => Some (String c g, r) | None => None end
      end
  end.

(** the alternatives of [(?:Python|python|assembly|cpp|c|c\+\+)?], in order (utils.py:30) *)
Definition tags : list string := ["Python"; "python"; "assembly"; "cpp"; "c"; "c++"].
(** The first alternative that matches is taken.  Going back to another one never helps:
    what follows is [(.*?)] and the alternatives contain no backquote. *)
Fixpoint drop_tag (l : list string) (s : string) : string :=
  match l with
  | [] => s
  | t :: l' => match after t s with Some r => r | None => drop_tag l' s end
  end.

Definition fence : string := "```".

(** utils.py:25-33: [re.finditer] goes through the text from left to right and continues
    after a match.  Every step makes the text shorter: [fuel]. *)
Fixpoint extract_from (fuel : nat) (s : string) : option (list string) :=
  match fuel with
  | O => None
  | S fuel' =>
      let skip := match s with EmptyString => Some [] | String _ s' => extract_from fuel' s' end in
      match after fence s with
      | Some r =>
          match until fence (drop_tag tags r) with
          | Some (g, rest) => match extract_from fuel' rest with Some l => Some (g :: l) | None => None end
          | None => skip
          end
      | None => skip
      end
  end.
(** utils.py:25-33 *)
Definition extract_all_python_functions (s : string) : option (list string) :=
  extract_from (S (String.length s)) s.

(** [([^c]+)c]: everything before the first [c], not empty *)
Definition run (c : ascii) (s : string) : option (string * string) :=
  match until (String c "") s with Some (EmptyString, _) | None => None | Some r => Some r end.

(** white space of [str.strip] and [\s]: tab, newline, vertical tab, form feed, carriage
    return, the four separators 28-31, space *)
Definition is_space (c : ascii) : bool :=
  let n := nat_of_ascii c in (Nat.leb 9 n && Nat.leb n 13) || (Nat.leb 28 n && Nat.leb n 32).
(** [str.lstrip] *)
Fixpoint lstrip (s : string) : string :=
  match s with String c s' => if is_space c then lstrip s' else s | EmptyString => s end.
(** [str.rstrip] *)
Fixpoint rstrip (s : string) : string :=
  match s with
  | EmptyString => EmptyString
  | String c s' => match rstrip s' with EmptyString => if is_space c then "" else String c "" | r => String c r end
  end.
(** [str.strip] (utils.py:40-42) *)
Definition strip (s : string) : string := rstrip (lstrip s).

(** A match of [ite\(([^,]+),\s*([^,]+),\s*([^)]+)\)] at the beginning (utils.py:45) and its
    replacement (39-43).  [\s*] leaves the next group one character at least; as the groups
    are stripped, its share makes no difference. *)
Definition ite_match (s : string) : option (string * string) :=
  match after "ite(" s with
  | None => None
  | Some r1 =>
      match run "," r1 with
      | None => None
      | Some (cond, r2) =>
          match run "," r2 with
          | None => None
          | Some (a, r3) =>
              match run ")" r3 with
              | None => None
              | Some (b, rest) => Some (strip a ++ " if " ++ strip cond ++ " else " ++ strip b, rest)
              end
          end
      end
  end.
(** utils.py:46: [re.sub]; [fuel] as above *)
Fixpoint replace_ite_from (fuel : nat) (s : string) : option string :=
  match fuel with
  | O => None
  | S fuel' =>
      match ite_match s with
      | Some (t, rest) => match replace_ite_from fuel' rest with Some u => Some (t ++ u) | None => None end
      | None =>
          match s with
          | EmptyString => Some ""
          | String c s' => match replace_ite_from fuel' s' with Some u => Some (String c u) | None => None end
          end
      end
  end.
(** utils.py:36-46 *)
Definition replace_ite (s : string) : option string := replace_ite_from (S (String.length s)) s.

(** ** arguments of invariants *)

(** A variable: its name and its type (utils.py:56-61, [var.src]) *)
Definition var : Type := (string * ty)%type.

(** insertion into a list sorted by [name()]; a new element stands before equal ones *)
Fixpoint insert (v : var) (l : list var) : list var :=
  match l with
  | [] => [v]
  | w :: l' => if String.leb (fst v) (fst w) then v :: l else w :: insert v l'
  end.
(** [sorted(l, key=lambda x: x.name())]: stable (utils.py:54-63) *)
Fixpoint sorted_by_name (l : list var) : list var :=
  match l with [] => [] | v :: l' => insert v (sorted_by_name l') end.

(** [set(l)] (utils.py:56): two variables are equal if they have the same name, whatever
    their types (ir.py:303-329), and have the same hash (331-332); the first one stays *)
Fixpoint py_set (kept l : list var) : list var :=
  match l with
  | [] => kept
  | v :: l' => if existsb (fun w => String.eqb (fst w) (fst v)) kept then py_set kept l' else py_set (kept ++ [v])%list l'
  end.

(** utils.py:54-64, one loop.  [order] is the order in which [list] gives the elements of
    a set: any. *)
Definition get_inv_args (order : list var -> list var) (read modified : list var) (loop_var : var) : list var :=
  sorted_by_name (order (py_set [] (read ++ modified ++ [loop_var])%list)).

(** utils.py:65-88: two loops, outer one first *)
Definition get_inv_args_double (order : list var -> list var)
    (outer_read inner_read outer_modified inner_modified : list var) (outer_var inner_var : var) : list var * list var :=
  (get_inv_args order outer_read outer_modified outer_var, get_inv_args order inner_read inner_modified inner_var).

(** utils.py:91-97: the dictionary as a list of pairs *)
Fixpoint lookup (d : list (string * string)) (x : string) : option string :=
  match d with [] => None | (a, b) :: d' => if String.eqb a x then Some b else lookup d' x end.
(** utils.py:91-97 *)
Definition replace_args (args : list var) (d : list (string * string)) : list var :=
  map (fun v => (match lookup d (fst v) with Some y => y | None => fst v end, snd v)) args.
