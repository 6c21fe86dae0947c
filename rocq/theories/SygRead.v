(** Reading the output of the SyGuS solver: metalift/synthesize_cvc5.py:57-228. *)

From Coq Require Import DecimalString.
From Coq Require Import String Ascii List ZArith Bool.
From Verif Require Import Ast Dict SynthModel SexpModel SmtPrint RosPrint.
Import ListNotations.
Local Open Scope list_scope.
Local Open Scope string_scope.

(** synthesize_cvc5.py:112-124 [expr_bi] *)
Definition syg_op (w : string) : option (list expr -> res expr) :=
  match find (fun p => String.eqb w (fst p))
    [ ("=", mkEq); ("+", mkArithN KAdd); ("-", mkArith2 KSub); ("*", mkArithN KMul); ("<", mkCmp KLt); ("<=", mkCmp KLe);
      (">", mkCmp KGt); (">=", mkCmp KGe); ("and", mkBoolN KAnd); ("or", mkBoolN KOr); ("=>", mkImplies) ] with
  | Some p => Some (snd p)
  | None => None
  end.

(** synthesize_cvc5.py:217-228: a word *)
Definition syg_atom (V : dict ty) (L : dict expr) (w : string) : res expr :=
  match number w with
  | Some z => Ok (IntLit z)
  | None =>
      if String.eqb w "false" then Ok (BoolLit false)
      else if String.eqb w "true" then Ok (BoolLit true)
      else match dget L w with
           | Some e => Ok e
           | None => match dget V w with Some t => Ok (mkVar w t) | None => Err ExKey end
           end
  end.

(** the branches for sets, 182-213: name, number of operands that are read, the call *)
Definition syg_set (h : string) (es : list expr) : res expr :=
  match es with
  | [a; b] =>
      if String.eqb h "set.insert" then t <- type_of a ;; mkCall (Atom (PStr "set-insert")) (TSet t) [a; b]
      else if String.eqb h "set.eq" then mkEq [a; b]
      else if String.eqb h "set.union" then t <- type_of a ;; mkCall (Atom (PStr "set-union")) t [a; b]
      else if String.eqb h "set.minus" then t <- type_of a ;; mkCall (Atom (PStr "set-minus")) t [a; b]
      else if String.eqb h "set.subset" then mkCall (Atom (PStr "set-subset")) TBool [a; b]
      else mkCall (Atom (PStr "set-member")) TBool [a; b]
  | _ => Err ExIndex
  end.
Definition set_heads : list string := ["set.insert"; "set.eq"; "set.union"; "set.minus"; "set.subset"; "set.member"].

(** synthesize_cvc5.py:105-228 [toExpr]; [F]: the functions and their types ([funName],
    [returnType]; the names of axioms are expressions and match no word), [V]: [varType],
    [L]: [letVars].  In a [let], only the first binding is looked at. *)
Fixpoint syg_expr (F V : dict ty) (L : dict expr) (s : sexp) {struct s} : res expr :=
  match s with
  | SA w => syg_atom V L w
  | SL [] => Err ExIndex
  | SL (SL _ :: _) => Err ExTypes                       (* unhashable type: 'list' *)
  | SL (SA h :: l) =>
      let rs := map (syg_expr F V L) l in
      match syg_op h with
      | Some mk =>                                                                        (* 127-139 *)
          match rs with
          | [ra; rb] => a <- ra ;; b <- rb ;; mk [a; b]
          | [ra] => if String.eqb h "-" then a <- ra ;; mk [IntLit 0; a] else Err ExValue
          | _ => Err ExValue
          end
      | None =>
      if String.eqb h "not" then a <- nth_res rs 0 ;; mkNot [a]                           (* 140 *)
      else match dget F h with
      | Some tf => rt <- fn_return_type tf ;; es <- first_res (List.length rs) rs ;; mkCall (Atom (PStr h)) rt es   (* 144 *)
      | None =>
      if String.eqb h "let" then                                                          (* 154 *)
        match l with
        | SL (SL (SA x :: a :: _) :: _) :: rest =>
            va <- syg_expr F V L a ;;
            match rest with b :: _ => syg_expr F V (dset L x va) b | [] => Err ExIndex end
        | SL (SA (String c1 (String c2 _)) :: _) :: rest =>     (* ast[1][0] is a string: its first two characters *)
            va <- syg_atom V L (String c2 "") ;;
            match rest with b :: _ => syg_expr F V (dset L (String c1 "") va) b | [] => Err ExIndex end
        | SL (SL (SL _ :: _ :: _) :: _) :: _ => Err ExTypes
        | _ => Err ExIndex
        end
      else if String.eqb h "ite" then                                                     (* 160 *)
        c <- nth_res rs 0 ;; a <- nth_res rs 1 ;; b <- nth_res rs 2 ;; mkIte [c; a; b]
      else if starts "tuple" h then                                                       (* 166 *)
        if contains "_get" h then Err ExAttr                    (* TupleGet: type.args does not exist, ir.py:2782 *)
        else es <- first_res (List.length rs) rs ;; ts <- mapR type_of es ;;
             match ts with
             | _ :: _ :: _ => mkCall (Atom (PStr ("tuple" ++ string_of_nat (List.length l)))) (TTuple ts) es
             | _ => Err ExIndex
             end
      else if String.eqb h "as" && match l with SA w :: _ => String.eqb w "set.empty" | _ => false end then
        mkCall (Atom (PStr "set-create")) (TSet TInt) []                                  (* 182 *)
      else if String.eqb h "set.singleton" then                                           (* 188 *)
        a <- nth_res rs 0 ;; t <- type_of a ;; mkCall (Atom (PStr "set-singleton")) (TSet t) [a]
      else if smem h set_heads then a <- nth_res rs 0 ;; b <- nth_res rs 1 ;; syg_set h [a; b]
      else Err ExNYI                                                                      (* 215 *)
      end end
  end.

(** [name in a] for an element [a] of the parsed line *)
Definition name_in (n : string) (a : sexp) : bool :=
  match a with
  | SA w => contains n w
  | SL l => existsb (fun x => match x with SA w => String.eqb n w | SL _ => false end) l
  end.
(** [a[0]], [a[1]] *)
Definition item (a : sexp) (i : nat) : res sexp :=
  match a with
  | SA w => match String.get i w with Some c => Ok (SA (String c "")) | None => Err ExIndex end
  | SL l => match nth_error l i with Some x => Ok x | None => Err ExIndex end
  end.

(** synthesize_cvc5.py:84-101: the candidates, and the dictionary of their bodies *)
Definition syg_candidate (F : dict ty) (ce : synth_fun) (a : sexp) (acc : list expr * dict expr) : res (list expr * dict expr) :=
  V <- (fix go (vs : list expr) (d : dict ty) : res (dict ty) :=
          match vs with
          | [] => Ok d
          | Node _ t (Atom (PStr x) :: _) :: vs => go vs (dset d x t)
          | _ => Err ExAttr
          end) (sf_vars ce) [] ;;
  b <- item a 1 ;; e <- syg_expr F V [] b ;; k <- item a 0 ;;
  match k with
  | SL _ => Err ExTypes
  | SA n => t <- type_of (sf_grammar ce) ;;
            f <- mkFn KFnDeclRec (Atom (PStr (sf_name ce))) t e (sf_vars ce) ;;
            Ok ((fst acc ++ [f])%list, dset (snd acc) n e)
  end.
Definition syg_round (F : dict ty) (ce : synth_fun) (items : list sexp) (acc : res (list expr * dict expr)) : res (list expr * dict expr) :=
  fold_left (fun acc a => if name_in (sf_name ce) a then p <- acc ;; syg_candidate F ce a p else acc) items acc.
(** synthesize_cvc5.py:77-102 [generateCandidates].  Simplification: "(exit)" in the
    line, which the parser drops, is not modelled. *)
Definition generate_candidates (F : dict ty) (inv_and_ps : list synth_fun) (line : string) : res (list expr * dict expr) :=
  match generate_ast line with
  | None => Err ExValue
  | Some [] => match inv_and_ps with [] => Ok ([], []) | _ => Err ExIndex end
  | Some (SA w :: _) => Err ExNYI          (* not reached: only lists *)
  | Some (SL items :: _) => fold_left (fun acc ce => syg_round F ce items acc) inv_and_ps (Ok ([], []))
  end.
