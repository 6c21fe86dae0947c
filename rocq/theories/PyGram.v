(** The part of the Python language that is needed to say what a generated text means:
    tokens, the grammar of expressions (Python Language Reference 6, 10) and their
    value.  This is a specification, not a model of code in /repo. *)

From Coq Require Import String Ascii List ZArith Bool DecimalString.
From Verif Require Import Ast Semantics Dict SmtText.
Import ListNotations.
Local Open Scope string_scope.
Local Open Scope list_scope.

(** ** tokens *)
Inductive tok : Type :=
| TName (x : string) | TNum (z : Z) | TBoolLit (b : bool)
| KwIf | KwElse | KwAnd | KwOr | KwNot | KwDef | KwReturn
| LP | RP | LB | RB | Comma | Colon | Plus | Minus | Star | SSlash | Percent
| CEq | CLt | CLe | CGt | CGe | Arrow | NL | Slash | Dot | Assign
| TOther.    (* any other token *)

(** the other reserved words *)
Definition reserved : list string :=
  ["None"; "as"; "assert"; "async"; "await"; "break"; "class"; "continue"; "del"; "elif"; "except"; "finally"; "for"; "from";
   "global"; "import"; "in"; "is"; "lambda"; "nonlocal"; "pass"; "raise"; "try"; "while"; "with"; "yield"].
Definition keyword (w : string) : option tok :=
  dget [("True", TBoolLit true); ("False", TBoolLit false); ("if", KwIf); ("else", KwElse); ("and", KwAnd); ("or", KwOr);
        ("not", KwNot); ("def", KwDef); ("return", KwReturn)] w.

Definition between (a b : nat) (c : ascii) : bool := Nat.leb a (nat_of_ascii c) && Nat.leb (nat_of_ascii c) b.
Definition digit (c : ascii) : bool := between 48 57 c.
Definition letter (c : ascii) : bool := between 65 90 c || between 97 122 c || Ascii.eqb c "_".
Definition word_char (c : ascii) : bool := letter c || digit c.
Fixpoint sall (p : ascii -> bool) (s : string) : bool := match s with EmptyString => true | String c r => p c && sall p r end.
(** a name: it starts with a letter, goes on with letters and digits, and is not reserved *)
Definition py_name (w : string) : bool :=
  match w with String c r => letter c && sall word_char r | EmptyString => false end
  && negb (smem w reserved) && match keyword w with None => true | Some _ => false end.
(** the token of a word *)
Definition word_tok (w : string) : tok :=
  match keyword w with
  | Some t => t
  | None => if py_name w then TName w else match numeral w with Some z => TNum z | None => TOther end
  end.
Definition op1 (c : ascii) : tok :=
  match dget [("(", LP); (")", RP); ("[", LB); ("]", RB); (",", Comma); (":", Colon); ("+", Plus); ("-", Minus); ("*", Star); ("%", Percent);
              ("<", CLt); (">", CGt); ("/", Slash); (".", Dot); ("=", Assign)] (String c "") with
  | Some t => t
  | None => if Nat.eqb (nat_of_ascii c) 10 then NL else TOther
  end.
Definition op2 (c d : ascii) : option tok :=
  dget [("//", SSlash); ("==", CEq); ("<=", CLe); (">=", CGe); ("->", Arrow); ("**", TOther); ("!=", TOther)] (String c (String d "")).
Definition flush (w : string) : list tok := match w with EmptyString => [] | _ => [word_tok w] end.
(** [w] is the part of a word that was read already *)
Fixpoint lex (w : string) (s : string) : list tok :=
  match s with
  | EmptyString => flush w
  | String c r =>
      if word_char c then lex (w ++ String c "") r
      else (flush w ++
        (if Ascii.eqb c " " then lex "" r
         else match r with
              | String d r' => match op2 c d with Some t => t :: lex "" r' | None => op1 c :: lex "" r end
              | EmptyString => [op1 c]
              end))%list
  end.

(** ** expressions *)
Inductive cmp : Type := OEq | OLt | OLe | OGt | OGe.
Inductive bin : Type := OAdd | OSub | OMul | OFloor | OMod | ODiv.
Inductive pexp : Type :=
| PName (x : string) | PNum (z : Z) | PBoolE (b : bool)
| PBin (o : bin) (a b : pexp) | PNeg (a : pexp)
| PCmp (a : pexp) (l : list (cmp * pexp))         (* a chain of comparisons *)
| PNot (a : pexp) | PAnd (a b : pexp) | POr (a b : pexp)
| PCond (c a b : pexp)                            (* a if c else b *)
| PCall (f : pexp) (args : list pexp)
| PIndex (a i : pexp) | PSlice (a : pexp) (lo hi : option pexp)
| PTuple (l : list pexp) | PList (l : list (bool * pexp))      (* true: starred *)
| PAttr (a : pexp) (x : string)                   (* a.x *)
| PKw (x : string) (a : pexp)                     (* the argument x=a of a call *)
| PCols (a lo hi : pexp).                         (* a[:, lo:hi] *)

Definition cmp_of (t : tok) : option cmp :=
  match t with CEq => Some OEq | CLt => Some OLt | CLe => Some OLe | CGt => Some OGt | CGe => Some OGe | _ => None end.
Definition sum_of (t : tok) : option bin := match t with Plus => Some OAdd | Minus => Some OSub | _ => None end.
Definition term_of (t : tok) : option bin := match t with Star => Some OMul | SSlash => Some OFloor | Percent => Some OMod | Slash => Some ODiv | _ => None end.

(** The nonterminals of the grammar, in the order of their binding, and the loops of the
    left-recursive ones:
      expression  = disjunction [ if disjunction else expression ]
      disjunction = conjunction { or conjunction }
      conjunction = inversion { and inversion }
      inversion   = not inversion | comparison
      comparison  = sum { cmp sum }
      sum         = term { "+" term or "-" term }
      term        = factor { "*" factor or "//" factor or "%" factor or "/" factor }
      factor      = - factor | primary
      primary     = atom { "(" arguments ")" | "[" slice "]" | "." name }
      atom        = name | number | True | False | "(" ... ")" | "[" items "]"
    Items of a list may be starred: * sum.  Arguments may have the form name = expression
    (so may the items of a tuple here; such a tuple has no value).  A number has no
    attributes, because a point right after a number belongs to the number. *)
Inductive goal : Type :=
| GCond | GOr | GOrT (a : pexp) | GAnd | GAndT (a : pexp) | GNot | GCmp | GCmpT (a : pexp) (l : list (cmp * pexp))
| GSum | GSumT (a : pexp) | GTerm | GTermT (a : pexp) | GFactor | GPrim | GPrimT (a : pexp) | GAtom
| GItems (close : tok) (stars : bool) (l : list (bool * pexp)).      (* items up to the closing token, as a list *)

(** is [t] the punctuation mark [c]? *)
Definition is (c t : tok) : bool :=
  match c, t with RP, RP | RB, RB | Comma, Comma | Colon, Colon | Star, Star => true | _, _ => false end.
(** the rest of the tokens after the mark [c] *)
Definition after_mark (c : tok) (ts : list tok) : option (list tok) :=
  match ts with t :: r => if is c t then Some r else None | [] => None end.
(** the name before an equals sign *)
Definition assigned (a : pexp) (ts : list tok) : option (string * list tok) :=
  match ts, a with Assign :: r, PName x => Some (x, r) | _, _ => None end.
Definition is_num (a : pexp) : bool := match a with PNum _ => true | _ => false end.
Definition items (p : pexp) : list pexp := match p with PList l => map snd l | _ => [] end.

Section Step.
  (** the parser for the parts of an expression *)
  Variable parse : goal -> list tok -> option (pexp * list tok).
  Definition step (g : goal) (ts : list tok) : option (pexp * list tok) :=
    match g with
    | GCond => match parse GOr ts with
               | Some (a, KwIf :: ts) => match parse GOr ts with
                                         | Some (c, KwElse :: ts) => match parse GCond ts with
                                                                     | Some (b, ts) => Some (PCond c a b, ts)
                                                                     | None => None
                                                                     end
                                         | _ => None
                                         end
               | r => r
               end
    | GOr => match parse GAnd ts with Some (a, ts) => parse (GOrT a) ts | None => None end
    | GOrT a => match ts with
                | KwOr :: ts => match parse GAnd ts with Some (b, ts) => parse (GOrT (POr a b)) ts | None => None end
                | _ => Some (a, ts)
                end
    | GAnd => match parse GNot ts with Some (a, ts) => parse (GAndT a) ts | None => None end
    | GAndT a => match ts with
                 | KwAnd :: ts => match parse GNot ts with Some (b, ts) => parse (GAndT (PAnd a b)) ts | None => None end
                 | _ => Some (a, ts)
                 end
    | GNot => match ts with
              | KwNot :: ts => match parse GNot ts with Some (a, ts) => Some (PNot a, ts) | None => None end
              | _ => parse GCmp ts
              end
    | GCmp => match parse GSum ts with Some (a, ts) => parse (GCmpT a []) ts | None => None end
    | GCmpT a l =>
        match ts with
        | t :: ts' => match cmp_of t with
                      | Some o => match parse GSum ts' with Some (b, ts) => parse (GCmpT a (l ++ [(o, b)])) ts | None => None end
                      | None => Some (match l with [] => a | _ => PCmp a l end, ts)
                      end
        | [] => Some (match l with [] => a | _ => PCmp a l end, ts)
        end
    | GSum => match parse GTerm ts with Some (a, ts) => parse (GSumT a) ts | None => None end
    | GSumT a => match ts with
                 | t :: ts' => match sum_of t with
                               | Some o => match parse GTerm ts' with Some (b, ts) => parse (GSumT (PBin o a b)) ts | None => None end
                               | None => Some (a, ts)
                               end
                 | [] => Some (a, ts)
                 end
    | GTerm => match parse GFactor ts with Some (a, ts) => parse (GTermT a) ts | None => None end
    | GTermT a => match ts with
                  | t :: ts' => match term_of t with
                                | Some o => match parse GFactor ts' with Some (b, ts) => parse (GTermT (PBin o a b)) ts | None => None end
                                | None => Some (a, ts)
                                end
                  | [] => Some (a, ts)
                  end
    | GFactor => match ts with
                 | Minus :: ts => match parse GFactor ts with Some (a, ts) => Some (PNeg a, ts) | None => None end
                 | _ => parse GPrim ts
                 end
    | GPrim => match parse GAtom ts with Some (a, ts) => parse (GPrimT a) ts | None => None end
    | GPrimT a =>
        match ts with
        | LP :: ts => match parse (GItems RP false []) ts with
                      | Some (l, ts) => parse (GPrimT (PCall a (items l))) ts
                      | None => None
                      end
        | LB :: ts =>
            match after_mark Colon ts with
            | Some ts =>
                match after_mark RB ts with
                | Some ts => parse (GPrimT (PSlice a None None)) ts
                | None =>
                    match after_mark Comma ts with
                    | Some ts => match parse GCond ts with
                                 | Some (lo, ts) => match after_mark Colon ts with
                                                    | Some ts => match parse GCond ts with
                                                                 | Some (hi, ts) => match after_mark RB ts with
                                                                                    | Some ts => parse (GPrimT (PCols a lo hi)) ts
                                                                                    | None => None
                                                                                    end
                                                                 | None => None
                                                                 end
                                                    | None => None
                                                    end
                                 | None => None
                                 end
                    | None => match parse GCond ts with
                              | Some (hi, ts) => match after_mark RB ts with
                                                 | Some ts => parse (GPrimT (PSlice a None (Some hi))) ts
                                                 | None => None
                                                 end
                              | None => None
                              end
                    end
                end
            | None =>
                match parse GCond ts with
                | Some (i, ts) =>
                    match after_mark RB ts with
                    | Some ts => parse (GPrimT (PIndex a i)) ts
                    | None =>
                        match after_mark Colon ts with
                        | Some ts => match after_mark RB ts with
                                     | Some ts => parse (GPrimT (PSlice a (Some i) None)) ts
                                     | None => match parse GCond ts with
                                               | Some (hi, ts) => match after_mark RB ts with
                                                                  | Some ts => parse (GPrimT (PSlice a (Some i) (Some hi))) ts
                                                                  | None => None
                                                                  end
                                               | None => None
                                               end
                                     end
                        | None => None
                        end
                    end
                | None => None
                end
            end
        | Dot :: ts => match ts with
                       | TName x :: ts => if is_num a then None else parse (GPrimT (PAttr a x)) ts
                       | _ => None
                       end
        | _ => Some (a, ts)
        end
    | GAtom =>
        match ts with
        | TName x :: ts => Some (PName x, ts)
        | TNum z :: ts => Some (PNum z, ts)
        | TBoolLit b :: ts => Some (PBoolE b, ts)
        | LP :: ts =>
            match after_mark RP ts with
            | Some ts => Some (PTuple [], ts)
            | None => match parse GCond ts with
                      | Some (a, ts) => match after_mark RP ts with
                                        | Some ts => Some (a, ts)
                                        | None => match after_mark Comma ts with
                                                  | Some ts => match parse (GItems RP false []) ts with
                                                               | Some (l, ts) => Some (PTuple (a :: items l), ts)
                                                               | None => None
                                                               end
                                                  | None => None
                                                  end
                                        end
                      | None => None
                      end
            end
        | LB :: ts => parse (GItems RB true []) ts
        | _ => None
        end
    | GItems c stars l =>
        match after_mark c ts with
        | Some ts => Some (PList l, ts)
        | None =>
            let star := if stars then after_mark Star ts else None in
            match (match star with Some ts => parse GSum ts | None => parse GCond ts end) with
            | Some (a, ts) =>
                match (match (if stars then None else assigned a ts) with
                       | Some (x, ts) => match parse GCond ts with Some (b, ts) => Some (PKw x b, ts) | None => None end
                       | None => Some (a, ts)
                       end) with
                | Some (a, ts) =>
                    let l := l ++ [(match star with Some _ => true | None => false end, a)] in
                    match after_mark Comma ts with
                    | Some ts => parse (GItems c stars l) ts
                    | None => match after_mark c ts with Some ts => Some (PList l, ts) | None => None end
                    end
                | None => None
                end
            | None => None
            end
        end
    end.
End Step.
(** [n] bounds the depth of the recursion *)
Fixpoint parse (n : nat) (g : goal) (ts : list tok) : option (pexp * list tok) :=
  match n with O => None | S n => step (parse n) g ts end.

(** [p] is the expression written in a text *)
Definition written (s : string) (p : pexp) : Prop := exists n, parse n GCond (lex "" s) = Some (p, []).

(** ** values *)

(** [bool] is a subclass of [int] *)
Definition num (v : val) : option Z := match v with VInt z => Some z | VBool b => Some (b2z b) | _ => None end.
Definition truth (v : val) : bool :=
  match v with
  | VInt z => negb (Z.eqb z 0) | VBool b => b
  | VList l | VTuple l => match l with [] => false | _ => true end
  | VFn _ => true
  end.
Fixpoint py_eqb (a b : val) : bool :=
  match a, b with
  | VInt x, VInt y => Z.eqb x y
  | VBool x, VBool y => Bool.eqb x y
  | VInt x, VBool y => Z.eqb x (b2z y)
  | VBool x, VInt y => Z.eqb (b2z x) y
  | VFn f, VFn g => String.eqb f g
  | VList xs, VList ys | VTuple xs, VTuple ys => list_eqb py_eqb xs ys
  | _, _ => false
  end.
Definition cmp_val (o : cmp) (a b : val) : option bool :=
  match o with
  | OEq => Some (py_eqb a b)
  | OLt => match num a, num b with Some x, Some y => Some (Z.ltb x y) | _, _ => None end
  | OLe => match num a, num b with Some x, Some y => Some (Z.leb x y) | _, _ => None end
  | OGt => match num a, num b with Some x, Some y => Some (Z.ltb y x) | _, _ => None end
  | OGe => match num a, num b with Some x, Some y => Some (Z.leb y x) | _, _ => None end
  end.
(** [//] and [%] round down and have no value for a zero divisor *)
Definition bin_val (o : bin) (a b : val) : option val :=
  match num a, num b with
  | Some x, Some y =>
      match o with
      | OAdd => Some (VInt (x + y)) | OSub => Some (VInt (x - y)) | OMul => Some (VInt (x * y))
      | OFloor => if Z.eqb y 0 then None else Some (VInt (x / y))
      | OMod => if Z.eqb y 0 then None else Some (VInt (x mod y))
      | ODiv => None        (* not an integer *)
      end
  | _, _ => None
  end.
Definition seq (v : val) : option (list val) := match v with VList l | VTuple l => Some l | _ => None end.
Definition reseq (v : val) (l : list val) : val := match v with VTuple _ => VTuple l | _ => VList l end.
(** an index or a bound may be negative: it then counts from the end *)
Definition index (l : list val) (i : Z) : option val :=
  let n := Z.of_nat (List.length l) in
  let j := if Z.ltb i 0 then (i + n)%Z else i in
  if Z.ltb j 0 then None else nth_error l (Z.to_nat j).
Definition clamp (l : list val) (i : Z) : nat :=
  let n := Z.of_nat (List.length l) in
  Z.to_nat (if Z.ltb i 0 then Z.max 0 (i + n) else Z.min i n).
Definition slice (l : list val) (lo hi : option Z) : list val :=
  let a := match lo with Some i => clamp l i | None => 0 end in
  let b := match hi with Some i => clamp l i | None => List.length l end in
  firstn (b - a) (skipn a l).

Section Value.
  (** the functions of the program and the variables *)
  Variable C : string -> list val -> option val.
  Variable r : env.
  Fixpoint value (p : pexp) : option val :=
    match p with
    | PName x => r x
    | PNum z => Some (VInt z)
    | PBoolE b => Some (VBool b)
    | PBin o a b => match value a, value b with Some x, Some y => bin_val o x y | _, _ => None end
    | PNeg a => match value a with Some v => option_map (fun z => VInt (- z)) (num v) | None => None end
    | PCmp a l =>
        (* a o1 b and b o2 c and ...; every operand is evaluated once, and no more than needed *)
        match value a with
        | Some v => (fix chain (v : val) (l : list (cmp * pexp)) : option val :=
                       match l with
                       | [] => Some (VBool true)
                       | (o, b) :: l => match value b with
                                        | Some w => match cmp_val o v w with
                                                    | Some true => chain w l
                                                    | Some false => Some (VBool false)
                                                    | None => None
                                                    end
                                        | None => None
                                        end
                       end) v l
        | None => None
        end
    | PNot a => option_map (fun v => VBool (negb (truth v))) (value a)
    | PAnd a b => match value a with Some v => if truth v then value b else Some v | None => None end
    | POr a b => match value a with Some v => if truth v then Some v else value b | None => None end
    | PCond c a b => match value c with Some v => if truth v then value a else value b | None => None end
    | PCall f args =>
        match mapO value args with
        | Some vs => match f with
                     | PName x => match r x with
                                  | Some (VFn g) => C g vs
                                  | Some _ => None
                                  | None => if String.eqb x "len"
                                            then match vs with [v] => option_map (fun l => VInt (Z.of_nat (List.length l))) (seq v) | _ => None end
                                            else C x vs
                                  end
                     | _ => match value f with Some (VFn g) => C g vs | _ => None end
                     end
        | None => None
        end
    | PIndex a i => match value a, value i with
                    | Some v, Some w => match seq v, num w with Some l, Some z => index l z | _, _ => None end
                    | _, _ => None
                    end
    | PSlice a lo hi =>
        let bound o := match o with
                       | None => Some None
                       | Some b => match value b with Some w => option_map Some (num w) | None => None end
                       end in
        match value a, bound lo, bound hi with
        | Some v, Some lo, Some hi => option_map (fun l => reseq v (slice l lo hi)) (seq v)
        | _, _, _ => None
        end
    | PTuple l => option_map VTuple (mapO value l)
    | PList l =>
        option_map (fun vs => VList (concat vs))
          (mapO (fun x : bool * pexp => match value (snd x) with
                                        | Some v => if fst x then seq v else Some [v]
                                        | None => None
                                        end) l)
    | PAttr _ _ | PKw _ _ | PCols _ _ _ => None       (* not on lists *)
    end.
End Value.
