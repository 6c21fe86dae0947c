(** The SMT-LIB text of expressions and definitions: the [toSMT] and [toSMTType]
    methods of metalift/ir.py. *)

From Coq Require Import String Ascii List ZArith Bool.
From Verif Require Import Ast Dict.
Import ListNotations.
Local Open Scope list_scope.
Local Open Scope string_scope.

(** [sep.join(l)] *)
Fixpoint join (sep : string) (l : list string) : string :=
  match l with [] => "" | [s] => s | s :: r => s ++ sep ++ join sep r end.

(** Python's [str] on plain objects *)
Definition str_atom (a : patom) : string :=
  match a with
  | PStr s => s
  | PInt z => string_of_Z z
  | PBool b => if b then "True" else "False"
  | PNone => "None"
  end.
(** the truth value of a plain object *)
Definition truthy (a : patom) : bool :=
  match a with
  | PStr s => negb (String.eqb s "")
  | PInt z => negb (Z.eqb z 0)
  | PBool b => b
  | PNone => false
  end.
(** ir.py:1901-1914 [Lit.to_rosette], [Lit.toSMT] *)
Definition lit_text (t : ty) (a : patom) : string :=
  if ty_eqb t TBool then (if truthy a then "true" else "false") else str_atom a.

(** [toSMTType]: ir.py:903 (Bool), 1048 (Int), 1312 (List), 1529 (Matrix), 1677 (Set),
    1737 (Tuple).  [Tensor3D] has no method of its own and inherits [List]'s; [Fn] has
    none at all (NotImplementedError). *)
Fixpoint smt_type (t : ty) : res string :=
  match t with
  | TInt => Ok "Int"
  | TBool => Ok "Bool"
  | TList e => s <- smt_type e ;; Ok ("(MLList " ++ s ++ ")")
  | TTensor3D e => s <- smt_type e ;; Ok ("(MLList " ++ s ++ ")")
  | TMatrix e => s <- smt_type e ;; Ok ("(MLList (MLList " ++ s ++ "))")
  | TSet e => s <- smt_type e ;; Ok ("(Set " ++ s ++ ")")
  | TTuple ts => ss <- mapR smt_type ts ;; Ok ("(Tuple" ++ string_of_nat (List.length ts) ++ " " ++ join " " ss ++ ")")
  | TFn _ => Err ExNYI
  end.

(** [s.startswith(p)] *)
Definition starts (p s : string) : bool := String.prefix p s.
(** [s[n:]] *)
Fixpoint sdrop (n : nat) (s : string) : string :=
  match n, s with S n, String _ r => sdrop n r | _, _ => s end.

(** [str(a)] of an argument of a call, as far as it matters: other expressions print
    as text that begins with a parenthesis (ir.py:283-291, 1862, 2416). *)
Definition arg_str (a : expr) : string :=
  match a with
  | Atom p => str_atom p
  | Node (KVar | KNonTerm) _ (Atom p :: _) => str_atom p
  | _ => "("
  end.

(** [self.args[0] == s] *)
Definition named (args : list expr) (s : string) : bool :=
  match args with Atom (PStr f) :: _ => String.eqb f s | _ => false end.

(** ir.py:2511-2545: the name for [tupleGet], from the tuple and the index.  The last
    case of the code ("HACK": counting letters in a mangled name) is not modelled. *)
Definition tuple_get_name (t i : expr) : res string :=
  match i with
  | Node _ _ (Atom ix :: _) =>
      let get n := "tuple" ++ string_of_nat n ++ "_get" ++ str_atom ix in
      match t with
      | Node KTupleExpr _ args => Ok (get (List.length args))
      | Node k ty args =>
          if named args "make-tuple" then Ok (get (List.length args - 1))
          else match k, ty with
               | (KVar | KNonTerm), TTuple ts => Ok (get (List.length ts))
               | _, _ => Err ExNYI
               end
      | Atom _ => Err ExAttr
      end
  | Node _ _ [] => Err ExIndex
  | Node _ _ (Node _ _ _ :: _) => Err ExTypes
  | Atom _ => Err ExAttr
  end.

(** ir.py:2507-2556: the word for one of [self.args], which [rest] follow; [None]: its
    own text.  [call] is false in [CallValue.toSMT] (2650-2692), which is the same code
    without the line for [list_eq].  (There the code for [tupleGet] differs; a
    variable of that name is not modelled.) *)
Definition call_word (call : bool) (a : expr) (rest : list expr) : option (res string) :=
  let s := arg_str a in
  if String.eqb s "make-tuple" then Some (Ok ("tuple" ++ string_of_nat (List.length rest)))
  else if String.eqb s "tupleGet" then
    Some (match rest with t :: i :: _ => tuple_get_name t i | _ => Err ExIndex end)
  else if starts "set-" s then Some (Ok ("set." ++ sdrop 4 s))
  else if starts "map-" s then Some (Ok ("map_" ++ sdrop 4 s))
  else if call && String.eqb s "list_eq" then Some (Ok "=")
  else match a with Atom (PStr f) => Some (Ok f) | _ => None end.

Definition smt_op (k : kind) : option string :=
  match k with
  | KAdd => Some "+" | KSub => Some "-" | KMul => Some "*" | KDiv => Some "div" | KMod => Some "mod"   (* 1932-2044 *)
  | KEq => Some "=" | KLt => Some "<" | KLe => Some "<=" | KGt => Some ">" | KGe => Some ">="           (* 2072-2202 *)
  | KAnd => Some "and" | KOr => Some "or" | KNot => Some "not" | KImplies => Some "=>"                  (* 2233-2312 *)
  | KIte => Some "ite" | KAssert => Some "assert" | KConstraint => Some "constraint"                    (* 2334, 2706, 2730 *)
  | _ => None
  end.

Section CallWords.
  Variable f : expr -> res string.   (* [toSMT] *)
  Variables call short : bool.
  (** ir.py:2507-2556 (2660-2691): the loop; with [short] the last one of [self.args] is left out *)
  Fixpoint call_words (l : list expr) : res (list string) :=
    match l with
    | [] => Ok []
    | a :: r =>
        if short && match r with [] => true | _ => false end then Ok []   (* self.args[:-1] *)
        else w <- match call_word call a r with Some w => w | None => match a with Atom _ => Err ExAttr | _ => f a end end ;;
             ws <- call_words r ;; Ok (w :: ws)
    end.
End CallWords.

(** ir.py: [toSMT]: 1870 (Var), 1910 (Lit), 344-361 ([toSMTSimple]), 2398 (Let),
    2495 (Call), 2650 (CallValue), 2763 (TupleExpr).  Definitions ([FnDeclRecursive],
    [Axiom]) are below; [Choose], [Synth] and [FnDecl] are not modelled. *)
Fixpoint to_smt (e : expr) : res string :=
  match e with
  | Atom (PStr _ as a) | Atom (PInt _ as a) | Atom (PBool _ as a) | Atom (PNone as a) => Ok (str_atom a)  (* 355: str(a) *)
  | Node k t args =>
      match smt_op k with
      | Some op => ss <- mapR to_smt args ;; Ok ("(" ++ op ++ " " ++ join " " ss ++ ")")
      | None =>
          match k with
          | KVar | KNonTerm => match args with a :: _ => Ok (arg_str a) | [] => Err ExIndex end
          | KLit => match args with Atom a :: _ => Ok (lit_text t a) | _ => Err ExIndex end
          | KLet =>
              match args with
              | [v; e1; e2] => a <- to_smt v ;; b <- to_smt e1 ;; c <- to_smt e2 ;; Ok ("(let ((" ++ a ++ " " ++ b ++ ")) " ++ c ++ ")")
              | _ => Err ExIndex
              end
          | KCall | KTargetCall | KCallValue =>
              let call := match k with KCallValue => false | _ => true end in
              if call && named args "set-create" then s <- smt_type t ;; Ok ("(as set.empty " ++ s ++ ")")
              else
                let short := named args "tupleGet" in
                ws <- call_words to_smt call short args ;;
                if call && match args with [_] => true | _ => false end then Ok (join " " ws)   (* noParens *)
                else Ok ("(" ++ join " " ws ++ ")")
          | KTupleExpr => ss <- mapR to_smt args ;; Ok ("(tuple" ++ string_of_nat (List.length args) ++ " " ++ join " " ss ++ ")")
          | _ => Err ExNYI
          end
      end
  end.

(** ["(%s %s)" % (name, type)], for a declared variable (ir.py:2825, 3087) *)
Definition smt_decl (a : expr) : res string :=
  match a with
  | Node _ t (Atom x :: _) => s <- smt_type t ;; Ok ("(" ++ str_atom x ++ " " ++ s ++ ")")
  | _ => Err ExAttr
  end.
(** ir.py:3066-3099 [FnDeclRecursive.toSMT].  A body that is a string is printed as it
    is; not modelled. *)
Definition newline : string := String (ascii_of_nat 10) "".
Definition smt_define (e : expr) : res string :=
  match e with
  | Node KFnDeclRec ft (Atom (PStr f) :: body :: args) =>
      rt <- fn_return_type ft ;;
      match body with
      | Atom PNone =>
          ts <- mapR (fun a => t <- type_of a ;; smt_type t) args ;; r <- smt_type rt ;;
          Ok ("(declare-fun " ++ f ++ " (" ++ join " " ts ++ ") " ++ r ++ ")")
      | Atom _ => Err ExNYI
      | Node _ _ _ =>
          ds <- mapR smt_decl args ;; r <- smt_type rt ;; b <- to_smt body ;;
          Ok ("(define-fun-rec " ++ f ++ " (" ++ join " " ds ++ ") " ++ r ++ newline ++ b ++ ")")
      end
  | _ => Err ExNYI
  end.
(** ir.py:2822-2830 [Axiom.toSMT] *)
Definition smt_axiom (e : expr) : res string :=
  match e with
  | Node KAxiom _ (b :: vars) =>
      vs <- mapR smt_decl vars ;; s <- to_smt b ;;
      Ok ("(assert (forall ( " ++ join " " vs ++ " ) " ++ s ++ " ))")
  | _ => Err ExNYI
  end.
