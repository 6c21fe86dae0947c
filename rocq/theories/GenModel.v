(** rosette_translator.py:33-139: the symbolic inputs that a synthesis problem is
    checked on. *)

From Coq Require Import String List ZArith Bool.
From Verif Require Import Ast Dict.
Import ListNotations.
Local Open Scope string_scope.
Local Open Scope list_scope.

(** the Racket text that is generated: [(define-symbolic x integer?)],
    [(define-symbolic x boolean?)] and [(define x term)], where a term is a name,
    [(list ...)], [(take term name)] or [(sort (remove-duplicates term) <)] *)
Inductive rterm : Type :=
| RName (x : string) | RListOf (ts : list rterm) | RTake (t : rterm) (n : string) | RSorted (t : rterm).
Inductive decl : Type := DSym (x : string) (int : bool) | DDef (x : string) (t : rterm).

(** [range(0, stop, step)], for a positive step *)
Definition range_step (stop step : nat) : list nat :=
  map (fun k => k * step) (seq 0 ((stop + step - 1) / step)).
(** [tmp[i : i + n]] *)
Definition chunk {A} (l : list A) (i n : nat) : list A := firstn n (skipn i l).

Definition bounded (x : string) (i : nat) : string := (x ++ "_BOUNDEDSET-" ++ string_of_nat i)%string.
Definition tuple_elem (x : string) (i : nat) : string := (x ++ "_TUPLE-" ++ string_of_nat i)%string.
Definition len_name (x : string) : string := (x ++ "_BOUNDEDSET-len")%string.

(** several calls of [gen_var], which append to the same two lists *)
Fixpoint gens (l : list (res (list decl * list string))) : res (list decl * list string) :=
  match l with
  | [] => Ok ([], [])
  | m :: r => a <- m ;; b <- gens r ;; Ok (fst a ++ fst b, snd a ++ snd b)
  end.

Section Gen.
Variable n : nat.   (* [list_bound] *)

(** rosette_translator.py:33-128 [gen_var]: what is appended to [decls] and to
    [vars_all].  The branch for [Map] (108-126) is left out: no type of the IR has an
    attribute [name]. *)
Fixpoint gen_var (t : ty) (x : string) {struct t} : res (list decl * list string) :=
  match t with
  | TInt => Ok ([DSym x true], [x])                                    (* 34-36 *)
  | TBool => Ok ([DSym x false], [x])                                  (* 38-40 *)
  | TMatrix e =>                                                       (* 42-57 *)
      let tmp := map (bounded x) (seq 0 (n * n)) in
      q <- gens (map (gen_var e) tmp) ;;
      if Nat.eqb n 0 then Err ExValue   (* range() arg 3 must not be zero *)
      else
        let lsts := map (fun i => RListOf (map RName (chunk tmp i n))) (range_step (List.length tmp - 1) n) in
        Ok (DSym (len_name x) true :: fst q ++ [DDef x (RTake (RListOf lsts) (len_name x))], len_name x :: snd q)
  | TTensor3D e =>                                                     (* 58-80 *)
      let tmp := map (bounded x) (seq 0 (n * n * n)) in
      q <- gens (map (gen_var e) tmp) ;;
      let matrices := map (fun i =>
        RListOf (map (fun j => RListOf (map RName (chunk tmp (i * n * n + j * n) n))) (seq 0 n))) (seq 0 n) in
      Ok (DSym (len_name x) true :: fst q ++ [DDef x (RTake (RListOf matrices) (len_name x))], len_name x :: snd q)
  | TList e =>                                                         (* 81-98 *)
      let tmp := map (bounded x) (seq 0 n) in
      q <- gens (map (gen_var e) tmp) ;;
      Ok (DSym (len_name x) true :: fst q ++ [DDef x (RTake (RListOf (map RName tmp)) (len_name x))], len_name x :: snd q)
  | TSet e =>
      let tmp := map (bounded x) (seq 0 n) in
      q <- gens (map (gen_var e) tmp) ;;
      Ok (DSym (len_name x) true :: fst q ++ [DDef x (RSorted (RTake (RListOf (map RName tmp)) (len_name x)))],
          len_name x :: snd q)
  | TTuple ts =>                                                       (* 99-106 *)
      q <- gens ((fix go (i : nat) (ts : list ty) :=
                    match ts with [] => [] | t :: r => gen_var t (tuple_elem x i) :: go (S i) r end) O ts) ;;
      Ok (fst q ++ [DDef x (RListOf (map (fun i => RName (tuple_elem x i)) (seq 0 (List.length ts))))], snd q)
  | TFn _ => Err ExTypes                                               (* 127-128 *)
  end.

(** rosette_translator.py:131-139 [generate_vars]; the variables are sorted by name
    before, which the caller of this function does *)
Definition generate_vars (vars : list (string * ty)) : res (list decl * list string) :=
  gens (map (fun v => gen_var (snd v) (fst v)) vars).
End Gen.
