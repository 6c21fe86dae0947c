(** metalift/frontend/llvm.py:495-552 [parse_loops]: reading the output of LLVM's
    loop analysis.  metalift/analysis.py:110-161 [parseLoops] is the same code for the
    older frontend, except that it keeps the list of headers. *)

From Coq Require Import String Ascii List Bool Arith.
From Verif Require Import Ast LlModel.
Import ListNotations.
Local Open Scope string_scope.
Local Open Scope list_scope.

(** ** Python's string operations *)

(** white space, as [str.strip] and [\S] have it; ASCII only *)
Definition is_space (c : ascii) : bool :=
  let n := nat_of_ascii c in Nat.eqb n 32 || (Nat.leb 9 n && Nat.leb n 13) || (Nat.leb 28 n && Nat.leb n 31).
Definition is_digit (c : ascii) : bool := let n := nat_of_ascii c in Nat.leb 48 n && Nat.leb n 57.

(** the rest after a prefix, if it is one *)
Fixpoint after (p s : string) : option string :=
  match p, s with
  | "", _ => Some s
  | String a p, String b s => if Ascii.eqb a b then after p s else None
  | _, _ => None
  end.
(** [sub in s] *)
Fixpoint contains (sub s : string) : bool :=
  match after sub s with
  | Some _ => true
  | None => match s with "" => false | String _ s => contains sub s end
  end.
(** [s.replace(c, "")] for one character *)
Fixpoint delete_char (c : ascii) (s : string) : string :=
  match s with
  | "" => ""
  | String a s => if Ascii.eqb a c then delete_char c s else String a (delete_char c s)
  end.
(** [s.split(c)] for one character *)
Fixpoint split_at (c : ascii) (s : string) : list string :=
  match s with
  | "" => [""]
  | String a s =>
      if Ascii.eqb a c then "" :: split_at c s
      else match split_at c s with
           | w :: ws => String a w :: ws
           | [] => [String a ""]
           end
  end.
(** the longest beginning made of characters that satisfy [p], and the rest *)
Fixpoint span (p : ascii -> bool) (s : string) : string * string :=
  match s with
  | "" => ("", "")
  | String a r => if p a then let q := span p r in (String a (fst q), snd q) else ("", s)
  end.
(** [s.lstrip()]; trailing white space makes no difference to what follows, so
    [strip] is simplified to this *)
Fixpoint lstrip (s : string) : string :=
  match s with String a r => if is_space a then lstrip r else s | "" => "" end.

(** ** parse_loops *)

Definition quote : string := String "'" "".
Definition heading : string := "Printing analysis 'Natural Loop Information' for function '".
(** llvm.py:501-506: [re.match] of the heading for one function.  Simplification: the
    function's name is compared literally; in the pattern a [.] or [$] in it would be
    special. *)
Definition is_heading (fn l : string) : bool :=
  match after (heading ++ fn ++ quote ++ ":") l with Some _ => true | None => false end.
(** llvm.py:512-516: the heading for any function, [\S+] for its name *)
Definition any_heading (l : string) : bool :=
  match after heading l with
  | Some r => match fst (span (fun c => negb (is_space c)) r) with
              | "" => false
              | String _ w => contains (quote ++ ":") w
              end
  | None => false
  end.
(** llvm.py:509-511: the blocks, from [Loop at depth \d+ containing: (\S+)] *)
Definition loop_line (l : string) : option string :=
  match after "Loop at depth " (lstrip l) with
  | None => None
  | Some r =>
      let q := span is_digit r in
      if String.eqb (fst q) "" then None else
      match after " containing: " (snd q) with
      | None => None
      | Some r =>
          let w := fst (span (fun c => negb (is_space c)) r) in
          if String.eqb w "" then None else Some w
      end
  end.

(** llvm.py:497-517 *)
Fixpoint found_lines (fn : string) (found : bool) (lines : list string) : list string :=
  match lines with
  | [] => []
  | l :: r =>
      if is_heading fn l then found_lines fn true r
      else if found then
        match loop_line l with
        | Some m => m :: found_lines fn true r
        | None => found_lines fn (negb (any_heading l)) r
        end
      else found_lines fn false r
  end.

(** llvm.py:527: [re.search("([^<]+)", b).group(0)] *)
Fixpoint block_name (b : string) : res string :=
  match b with
  | "" => Err ExAttr
  | String a r => if Ascii.eqb a "<" then block_name r
                  else Ok (fst (span (fun c => negb (Ascii.eqb c "<")) b))
  end.

(** llvm.py:519-545: one loop *)
Definition sorted_blocks (m : string) : res (list (string * string)) :=
  mapR (fun b => n <- block_name b ;; Ok (n, b)) (split_at "," (delete_char "%" m)).
Definition names_of (p : string -> bool) (l : list (string * string)) : list string :=
  map fst (filter (fun q => p (snd q)) l).
Definition one_loop (m : string) : res raw_loop :=
  l <- sorted_blocks m ;;
  match names_of (contains "<header>") l with
  | [] => Err ExIndex
  | [h] => Ok {| rl_header := h;
                 rl_body := names_of (fun b => negb (contains "<header>" b) && negb (contains "<exiting>" b)
                                                 && negb (contains "latch" b)) l;
                 rl_exits := names_of (contains "<exiting>") l;
                 rl_latches := names_of (contains "<latch>") l |}
  | _ => Err ExValue
  end.
(** llvm.py:495-552; [lines] are the lines of the file *)
Definition parse_loops (lines : list string) (fn : string) : res (list raw_loop) :=
  mapR one_loop (found_lines fn false lines).
