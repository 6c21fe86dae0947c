(** C45: the NumPy text of a lifted expression, read by the rules of Python, has the
    value of the expression. *)

From Coq Require Import String Ascii List ZArith Bool Lia.
From Verif Require Import Ast Semantics Dict SexpModel SexpProofs SmtPrint SmtPrintProofs PyText PyGram PyParse PyMean SmtPrelude SmtProofs RktModel ListOps LibSem
  TensModel TensProofs AxProofs TensDemo Properties_Smt Properties_Tens NpModel NpSem NpProofs NpProofs2 NpProofs3 NpProofs4 NpProofs5.
Import ListNotations.
Local Open Scope string_scope.
Local Open Scope list_scope.

(** ** the text of an expression *)

(** Full statement (false, see below): for every lifted expression and all inputs.
    Missing: expressions outside [shown] (NpSem.v), inputs that do not fit ([fits]: for
    example vectors of different lengths, negative divisors, numbers outside the range of
    the elements), results that are not exact integers (type of elements FLOAT), and the
    functions with such results.

    The text that is generated is written according to the grammar of Python for one
    expression; that expression has the value of the lifted expression. *)
Theorem C45_text_partial W lo hi fns d e t l :
  (forall z, (lo <= z <= hi)%Z -> W z = z) -> is_float d = false -> shown fns e t l ->
  exists N s p, (forall n, N <= n -> helper fns d n e [] = Ok (s, Some t)) /\ written s p /\
    forall I r E, tensor_like fns I -> same_vars r E -> fits lo hi I (select_fits fns lo hi I) r e ->
      forall dv, proper dv -> eval I r e = Some (emb dv) -> npvalue W E p = Some (NA (arr_of dv)).
Proof.
  intros Wok Dint Sh. destruct (shown_right W lo hi fns d Wok Dint e t l Sh) as [p [_ [T M]]].
  destruct (T [] (fresh_nil e)) as [N [s [ts [H [X R]]]]]. exists N, s, p. split; [exact H|]. split; [|exact M].
  unfold written. specialize (X "" eq_refl). assert (Q : (s ++ "" = s)%string) by (clear; induction s; cbn; congruence). rewrite Q in X. rewrite X. cbn [lex flush].
  pose proof (reads_at 0 l _ _ R (Nat.le_0_l _) [] Logic.I) as Y. rewrite app_nil_r in *. exact Y.
Qed.
Print Assumptions C45_text_partial.

(** ** the two functions of the program *)

(** A call: the parameters have the values of the arguments. *)
Fixpoint named {A} (xs : list string) (vs : list A) (x : string) : option A :=
  match xs, vs with y :: xs, v :: vs => if String.eqb x y then Some v else named xs vs x | _, _ => None end.
(** a sequence of assignments *)
Fixpoint assign (W : Z -> Z) (E : string -> option nval) (l : list (string * pexp)) : option (string -> option nval) :=
  match l with
  | [] => Some E
  | (x, p) :: l => match npvalue W E p with
                   | Some v => assign W (fun y => if String.eqb y x then Some v else E y) l
                   | None => None
                   end
  end.
(** [def g(xs): <assignments>; return f(xs)] where [def f(xs): return <body>], applied to
    arguments *)
Definition call_glued (W : Z -> Z) (xs : list string) (l : list (string * pexp)) (body : pexp) (args : list nval) : option nval :=
  match assign W (named xs args) l with
  | Some E => match mapO E xs with Some vs => npvalue W (named xs vs) body | None => None end
  | None => None
  end.
(** vectors and matrices as (nested) lists *)
Definition as_lists (d : dval) : nval :=
  let num z := NA (AS (EI z)) in
  match d with
  | DZ z => num z | DB b => NA (AS (EB b)) | DL l => NSeq (map num l) | DM m => NSeq (map (fun r => NSeq (map num r)) m)
  | DT _ => NSeq []
  end.
(** the variables in the body of a lifted function: its parameters, and the functions *)
Definition frame (fns : list (string * expr)) (xs : list string) (vs : list val) : env := fun x =>
  match named xs vs x with Some v => Some v | None => if smem x (map fst fns) then Some (VFn x) else None end.
(** values of parameters; the elements of arrays are in range *)
Definition arg_ok (lo hi : Z) (t : ty) (d : dval) : Prop :=
  match t, d with
  | TInt, DZ _ | TBool, DB _ => True
  | TList TInt, DL _ => within lo hi d
  | TMatrix TInt, DM m => rectb m = true /\ within lo hi d
  | _, _ => False
  end.

(** ** conversions *)
Definition conv_tokens (x : string) (d : dtype) : list tok :=
  [TName "np"; Dot; TName "array"; LP; TName x; RP; Dot; TName "astype"; LP; TName "np"; Dot; TName (match d with FLOAT => "float32" | INT32 => "int32" | UINT_8 => "uint8" end); RP].
Definition conv_exp (x : string) (d : dtype) : pexp :=
  PCall (PAttr (PCall (np_fn "array") [PName x]) "astype") [np_fn (match d with FLOAT => "float32" | INT32 => "int32" | UINT_8 => "uint8" end)].
Definition converted (t : ty) : bool := match t with TMatrix TInt | TList TInt => true | _ => false end.

Lemma conv_open x d : opened (conv_tokens x d) (conv_exp x d).
Proof.
  intros ts1 q rest P. unfold conv_tokens, conv_exp in *. set (g := match d with FLOAT => "float32" | INT32 => "int32" | UINT_8 => "uint8" end) in *.
  assert (X : forall y, at_level 0 [TName y] (PName y)) by (intros y; apply (reads_at 0 8); [apply reads8; [reflexivity|apply opened_name]|lia]).
  apply (opened_np "array" [([TName x], PName x)] ltac:(constructor; [apply X|constructor]) (Dot :: TName "astype" :: LP :: TName "np" :: Dot :: TName g :: RP :: ts1)).
  apply r_attr; [reflexivity|].
  assert (Y : at_level 0 [TName "np"; Dot; TName g] (np_fn g)).
  { apply (reads_at 0 8); [|lia]. apply reads8; [reflexivity|]. apply (opened_attr [TName "np"] (PName "np")); [apply opened_name|reflexivity]. }
  apply (r_call _ _ [(false, np_fn g)] ts1); [|exact P].
  exact (items_read0 RP [([TName "np"; Dot; TName g], np_fn g)] (or_introl eq_refl) ltac:(constructor; [exact Y|constructor]) ts1 _).
Qed.
Lemma conv_value W lo hi E x d t dv : (forall z, (lo <= z <= hi)%Z -> W z = z) -> converted t = true -> arg_ok lo hi t dv ->
  E x = Some (as_lists dv) -> npvalue W E (conv_exp x d) = Some (NA (arr_of dv)).
Proof.
  intros Wok C A V. unfold conv_exp.
  assert (Y : npvalue W E (PCall (np_fn "array") [PName x]) = Some (NA (arr_of dv))).
  { rewrite (call_value W E "array" [PName x] [as_lists dv]) by (repeat constructor; exact V).
    destruct t as [| |[]|[]| | | |]; try discriminate C; destruct dv; try contradiction A; cbn [as_lists map arr_of].
    - change (npcall W "array" [(None, NSeq (map (fun z => NA (AS (EI z))) l))]) with (option_map NA (narray (map (fun z => NA (AS (EI z))) l))).
      unfold narray. assert (X : mapO as_elt (map (fun z => NA (AS (EI z))) l) = Some (map EI l)) by (clear; induction l as [|z l IH]; [reflexivity|cbn; rewrite IH; reflexivity]).
      rewrite X. reflexivity.
    - destruct A as [R _]. destruct m as [|r m]; [discriminate R|].
      change (npcall W "array" [(None, NSeq (map (fun r => NSeq (map (fun z => NA (AS (EI z))) r)) (r :: m)))]) with (option_map NA (narray (map (fun r => NSeq (map (fun z => NA (AS (EI z))) r)) (r :: m)))).
      unfold narray. cbn [map mapO as_elt].
      assert (X : forall r, as_elts (NSeq (map (fun z => NA (AS (EI z))) r)) = Some (map EI r)) by (clear; intros r; cbn [as_elts]; induction r as [|z l IH]; [reflexivity|cbn; rewrite IH; reflexivity]).
      rewrite X.
      assert (Z : mapO as_elts (map (fun r => NSeq (map (fun z => NA (AS (EI z))) r)) m) = Some (map (map EI) m)) by (clear - X; induction m as [|z l IH]; [reflexivity|cbn [map mapO]; rewrite X, IH; reflexivity]).
      rewrite Z. cbn [rectb forallb] in R. rewrite Nat.eqb_refl in R. cbn [andb] in R.
      assert (Q : forallb (fun s => Nat.eqb (List.length s) (List.length (map EI r))) (map (map EI) m) = true).
      { rewrite forallb_forall in *. intros s Hs. apply in_map_iff in Hs. destruct Hs as [s' [<- Hs]]. rewrite !map_length. apply R, Hs. }
      rewrite Q. reflexivity. }
  cbn [npvalue]. cbn [npvalue] in Y. rewrite Y. 
  assert (M : emap (fun e => match e with EI z => ei W z | EB _ => None end) (arr_of dv) = Some (arr_of dv)).
  { assert (L : forall l, Forall (fun z => lo <= z <= hi)%Z l -> mapO (fun e => match e with EI z => ei W z | EB _ => None end) (map EI l) = Some (map EI l)).
    { intros l F. induction F as [|z l Hz F IH]; [reflexivity|]. cbn [map mapO]. rewrite IH. unfold ei. rewrite (Wok z Hz). reflexivity. }
    destruct t as [| |[]|[]| | | |]; try discriminate C; destruct dv; try contradiction A; cbn [arr_of emap].
    - rewrite (L l A). reflexivity.
    - destruct A as [_ A]. cbn [within] in A. clear - L A. assert (Z : mapO (mapO (fun e => match e with EI z => ei W z | EB _ => None end)) (map (map EI) m) = Some (map (map EI) m)).
      { induction A as [|r m Hr A IH]; [reflexivity|]. cbn [map mapO]. rewrite IH, (L r Hr). reflexivity. }
      rewrite Z. reflexivity. }
  destruct d; cbn [mapO npvalue np_fn option_map smem existsb]; change (npvalue W E (np_fn "array")) with (@None nval); cbn; rewrite M; reflexivity.
Qed.

(** the tokens of the header of a function *)
Definition signature (f : string) (xs : list string) : list tok :=
  [KwDef; TName f; LP] ++ tjoin Comma (map (fun x => [TName x]) xs) ++ [RP; Colon].
(** the layout of a function: a line for the header, which is not indented, and a line for each statement,
    indented by four spaces; lines may be empty *)
Definition indented (b : string) (ts : list tok) : Prop := exists c, b = ("    " ++ c)%string /\ prefix " " c = false /\ lex "" c = ts.
Definition layout (s : string) (h : list tok) (stmts : list (list tok)) : Prop :=
  exists sh bs, s = (newline ++ sh ++ newline ++ fold_right (fun b s => b ++ newline ++ s) "" bs)%string /\ prefix " " sh = false /\ lex "" sh = h /\
    Forall2 indented (filter (fun b => negb (String.eqb b "")) bs) stmts.

Lemma names_lex xs : Forall (fun x => py_name x = true) xs -> Forall2 lexes xs (map (fun x => [TName x]) xs).
Proof. induction 1; constructor; [apply word_name; assumption|assumption]. Qed.
Lemma lexes_all s ts : lexes s ts -> lex "" s = ts.
Proof.
  intros X. specialize (X "" eq_refl). assert (Q : (s ++ "" = s)%string) by (clear; induction s; cbn; congruence). rewrite Q in X. rewrite X. cbn [lex flush]. apply app_nil_r.
Qed.
Lemma signature_lex sp f xs : sp = "" \/ sp = " " -> py_name f = true -> Forall (fun x => py_name x = true) xs ->
  lex "" ("def " ++ f ++ sp ++ "(" ++ join ", " xs ++ "):") = signature f xs.
Proof.
  intros Sp Nf Nx. apply lexes_all. unfold signature. change ([KwDef; TName f; LP] ++ ?a) with ([KwDef] ++ [TName f] ++ [LP] ++ a).
  apply lexes_str; [intros [|? ?]; reflexivity|]. destruct Sp; subst sp; (apply lexes_cat; [apply word_name, Nf| |reflexivity|discriminate]).
  - apply (lexes_str "("); [intros [|? ?]; reflexivity|]. apply lexes_cat; [apply (lexes_join ", "); [apply sep_comma|apply names_lex, Nx]|intros [|? ?] _; reflexivity|reflexivity|discriminate].
  - apply (lexes_str " ("); [intros [|? ?]; reflexivity|]. apply lexes_cat; [apply (lexes_join ", "); [apply sep_comma|apply names_lex, Nx]|intros [|? ?] _; reflexivity|reflexivity|discriminate].
Qed.
Definition glue_lines (ls : list string) : string := match ls with [] => "" | _ => ("    " ++ join (newline ++ "    ") ls)%string end.
Lemma layout_one sp f xs r tr : sp = "" \/ sp = " " -> py_name f = true -> Forall (fun x => py_name x = true) xs -> lex "" r = tr -> prefix " " r = false ->
  layout (newline ++ "def " ++ f ++ sp ++ "(" ++ join ", " xs ++ "):" ++ newline ++ "    " ++ r ++ newline) (signature f xs) [tr].
Proof.
  intros Sp Nf Nx R P. exists ("def " ++ f ++ sp ++ "(" ++ join ", " xs ++ "):")%string, ["    " ++ r]%string.
  split; [cbn [fold_right]; strs|]. split; [reflexivity|]. split; [apply signature_lex; assumption|]. cbn. constructor; [|constructor]. exists r. auto.
Qed.
Lemma layout_all sp f xs ls tls r tr : sp = "" \/ sp = " " -> py_name f = true -> Forall (fun x => py_name x = true) xs ->
  Forall2 (fun l t => lex "" l = t /\ prefix " " l = false) ls tls -> lex "" r = tr -> prefix " " r = false ->
  layout (newline ++ "def " ++ f ++ sp ++ "(" ++ join ", " xs ++ "):" ++ newline ++ glue_lines ls ++ newline ++ "    " ++ r ++ newline) (signature f xs) (tls ++ [tr]).
Proof.
  intros Sp Nf Nx F R P. exists ("def " ++ f ++ sp ++ "(" ++ join ", " xs ++ "):")%string, ((match ls with [] => [""] | _ => map (append "    ") ls end) ++ ["    " ++ r]%string).
  assert (G : (glue_lines ls ++ newline ++ "    " ++ r ++ newline = fold_right (fun b s => b ++ newline ++ s) "" ((match ls with [] => [""] | _ => map (append "    ") ls end) ++ ["    " ++ r]))%string).
  { unfold glue_lines. destruct ls as [|a ls]; [cbn; reflexivity|]. clear. revert a. induction ls as [|b ls IH]; intros a; [cbn [map app fold_right join]; strs|].
    specialize (IH b). cbn [map app fold_right join] in *. rewrite <- IH. strs. }
  rewrite <- G. split; [strs|]. split; [reflexivity|]. split; [apply signature_lex; assumption|]. clear G.
  rewrite filter_app. apply Forall2_app; [|cbn; constructor; [|constructor]; exists r; auto].
  destruct F as [|a ta ls tls [Fa Fp] F]; [constructor|]. cbn [map]. cbn. constructor; [exists a; auto|]. clear - F. induction F as [|a ta ls tls [Fa Fp] F IH]; [constructor|]. cbn. constructor; [exists a; auto|exact IH].
Qed.
Lemma name_first x u : py_name x = true -> prefix " " (x ++ u) = false.
Proof.
  destruct x as [|c x]; [discriminate|]. intros N. unfold py_name in N. apply andb_prop in N. destruct N as [N _]. apply andb_prop in N. destruct N as [N _]. apply andb_prop in N. destruct N as [N _].
  cbn [append prefix]. destruct (ascii_dec " " c) as [<-|]; [discriminate N|reflexivity].
Qed.
Lemma conv_lex x d : py_name x = true -> lexes (x ++ " = np.array(" ++ x ++ ").astype(" ++ np_dtype d ++ ")") (TName x :: Assign :: conv_tokens x d).
Proof.
  intros Nx. change (TName x :: Assign :: conv_tokens x d) with ([TName x] ++ [Assign; TName "np"; Dot; TName "array"; LP] ++ [TName x] ++ skipn 5 (conv_tokens x d)).
  apply lexes_cat; [apply word_name, Nx| |reflexivity|discriminate]. apply lexes_str; [intros [|? ?]; reflexivity|].
  apply lexes_cat; [apply word_name, Nx| |reflexivity|discriminate]. intros [|? ?] _; destruct d; reflexivity.
Qed.
Lemma named_in {A B} (f : A -> B) xs vs x : named xs (map f vs) x = option_map f (named xs vs x).
Proof. revert vs. induction xs as [|y xs IH]; intros [|v vs]; try reflexivity. cbn. destruct (String.eqb x y); [reflexivity|apply IH]. Qed.
Lemma conv_run W lo hi d ps ds E : (forall z, (lo <= z <= hi)%Z -> W z = z) -> NoDup (map fst ps) ->
  Forall2 (fun p dv => arg_ok lo hi (snd p) dv) ps ds ->
  Forall2 (fun p dv => E (fst p) = Some (as_lists dv)) ps ds ->
  exists E', assign W E (map (fun p => (fst p, conv_exp (fst p) d)) (filter (fun p => converted (snd p)) ps)) = Some E' /\
    Forall2 (fun p dv => E' (fst p) = Some (NA (arr_of dv))) ps ds /\ forall y, ~ In y (map fst ps) -> E' y = E y.
Proof.
  intros Wok. revert ds E. induction ps as [|[x t] ps IH]; intros ds E ND A V; inversion A as [|? dv ? ds' A1 A2]; subst; inversion V as [|? ? ? ? V1 V2]; subst.
  - exists E. repeat split; auto.
  - inversion ND as [|? ? N1 N2]; subst. cbn [fst snd filter map] in *.
    assert (K : forall E1, (forall y, y <> x -> E1 y = E y) -> Forall2 (fun p dv => E1 (fst p) = Some (as_lists dv)) ps ds').
    { intros E1 H. clear - V2 H N1. assert (H' : forall y, In y (map fst ps) -> E1 y = E y) by (intros y Hy; apply H; intros ->; contradiction).
      clear N1 H. induction V2 as [|p dv ps ds' V V2 IH]; constructor.
      - rewrite H'; [exact V|left; reflexivity].
      - apply IH. intros y Hy. apply H'. right. exact Hy. }
    destruct (converted t) eqn:C.
    + cbn [map assign fst snd]. rewrite (conv_value W lo hi E x d t dv Wok C A1 V1). set (E1 := fun y => if String.eqb y x then Some (NA (arr_of dv)) else E y).
      assert (H1 : forall y, y <> x -> E1 y = E y) by (intros y H; unfold E1; rewrite (proj2 (String.eqb_neq y x) H); reflexivity).
      destruct (IH ds' E1 N2 A2 (K E1 H1)) as [E' [R [F O]]]. exists E'. split; [exact R|]. split.
      * constructor; [|exact F]. cbn [fst]. rewrite (O x N1). unfold E1. rewrite String.eqb_refl. reflexivity.
      * intros y Hy. rewrite O by (intros H; apply Hy; right; exact H). apply H1. intros ->. apply Hy. left. reflexivity.
    + destruct (IH ds' E N2 A2 (K E ltac:(reflexivity))) as [E' [R [F O]]]. exists E'. split; [exact R|]. split.
      * constructor; [|exact F]. cbn [fst]. rewrite (O x N1), V1. destruct t as [| |[]|[]| | | |]; try discriminate C; destruct dv; try contradiction A1; reflexivity.
      * intros y Hy. apply O. intros H. apply Hy. right. exact H.
Qed.
Lemma arg_proper lo hi t dv : arg_ok lo hi t dv -> proper dv.
Proof. destruct t as [| |[]|[]| | | |], dv; cbn; intros H; try contradiction; try exact Logic.I; tauto. Qed.

(** the type of the elements in the text of a conversion, and the one that is meant *)
Definition element_type (p : pexp) : option string :=
  match p with
  | PCall _ [PAttr _ t] | PCall _ [_; PAttr _ t] => Some t
  | PCall _ [_; PKw k (PAttr _ t)] => if String.eqb k "dtype" then Some t else None
  | _ => None
  end.
Definition element (d : dtype) : string := match d with FLOAT => "float32" | INT32 => "int32" | UINT_8 => "uint8" end.

(** The text of the program is, token by token: a function with the parameters of the
    lifted function and one [return] statement; and a function with the same parameters
    that turns the vectors and matrices into arrays of the given type and calls the first one.  Called with
    lists, it returns the value of the lifted function.  Missing: as above, and parameters
    of other types. *)
Theorem C45_program_partial W lo hi fns d k f T body t l params :
  let xs := map fst params in
  let decl := Node k T (Atom (PStr f) :: body :: map (fun x => mkVar (fst x) (snd x)) params) in
  let f1 := (cut3 f ++ "_np")%string in let f2 := (cut3 f ++ "_np_glued")%string in
  k = KFnDeclRec \/ k = KFnDecl \/ k = KTarget ->
  py_name f1 = true -> py_name f2 = true -> NoDup xs -> Forall (fun x => py_name x = true /\ x <> "np") xs ->
  (forall z, (lo <= z <= hi)%Z -> W z = z) -> is_float d = false -> shown fns body t l ->
  exists N s1 s2 ts p lines,
    (forall n, N <= n -> np_kernel fns d n decl = Ok s1) /\ np_glued d decl = Ok s2 /\
    layout s1 (signature f1 xs) [KwReturn :: ts] /\ (exists n, parse n GCond ts = Some (p, [])) /\
    layout s2 (signature f2 xs) (map (fun x => TName (fst x) :: Assign :: fst (snd x)) lines ++
                                 [[KwReturn; TName f1; LP] ++ tjoin Comma (map (fun x => [TName x]) xs) ++ [RP]]) /\
    Forall (fun x => (exists n, parse n GCond (fst (snd x)) = Some (snd (snd x), [])) /\ element_type (snd (snd x)) = Some (element d)) lines /\
    forall I ds dv, tensor_like fns I -> Forall2 (fun x d => arg_ok lo hi (snd x) d) params ds ->
      let r := frame fns xs (map emb ds) in
      fits lo hi I (select_fits fns lo hi I) r body -> proper dv -> eval I r body = Some (emb dv) ->
      call_glued W xs (map (fun x => (fst x, snd (snd x))) lines) p (map as_lists ds) = Some (NA (arr_of dv)).
Proof.
  intros xs decl f1 f2 K N1 N2 ND Nx Wok Dint Sh. destruct (shown_right W lo hi fns d Wok Dint body t l Sh) as [p [_ [T0 M]]].
  destruct (T0 [] (fresh_nil body)) as [N [s [ts [H [X R]]]]].
  assert (Nx' : Forall (fun x => py_name x = true) xs) by (eapply Forall_impl; [|exact Nx]; cbn; tauto).
  assert (Nm : mapR name_of (map (fun x => mkVar (fst x) (snd x)) params) = Ok xs).
  { unfold xs. clear. induction params as [|[x u] ps IH]; [reflexivity|]. cbn [map mapR]. rewrite IH. reflexivity. }
  set (conv := filter (fun p => converted (snd p)) params).
  set (line := fun x => (x ++ " = np.array(" ++ x ++ ").astype(" ++ np_dtype d ++ ")")%string).
  assert (Cv : exists cs, mapR (fun p => x <- name_of p ;; u <- type_of p ;; Ok (np_conversion d x u)) (map (fun x => mkVar (fst x) (snd x)) params) = Ok cs /\ concat cs = map (fun x => line (fst x)) conv).
  { unfold conv. clear. induction params as [|[x u] ps IH]; [exists []; split; reflexivity|]. destruct IH as [cs [E C]]. exists (np_conversion d x u :: cs). cbn [map mapR fst snd]. rewrite E. split; [reflexivity|].
    cbn [concat filter snd]. rewrite C. destruct u as [| |[]|[]| | | |]; reflexivity. }
  destruct Cv as [cs [Ec Cc]].
  set (lines := map (fun x : string * ty => (fst x, (conv_tokens (fst x) d, conv_exp (fst x) d))) conv).
  exists N, (newline ++ "def " ++ f1 ++ " (" ++ join ", " xs ++ "):" ++ newline ++ "    return " ++ s ++ newline)%string,
    (newline ++ "def " ++ f2 ++ " (" ++ join ", " xs ++ "):" ++ newline ++
     glue_lines (map (fun x => line (fst x)) conv) ++ newline ++ "    return " ++ f1 ++ "(" ++ join ", " xs ++ ")" ++ newline)%string,
    ts, p, lines.
  split; [|split; [|split; [|split; [|split; [|split]]]]].
  - intros n L. assert (Q : np_kernel fns d n decl = (xs <- mapR name_of (map (fun x => mkVar (fst x) (snd x)) params) ;; s <- helper fns d n body [] ;;
        Ok (newline ++ "def " ++ cut3 f ++ "_np (" ++ join ", " xs ++ "):" ++ newline ++ "    return " ++ fst s ++ newline)%string)) by (destruct K as [->|[->| ->]]; reflexivity).
    rewrite Q, Nm. cbn [bindR]. rewrite (H n L). cbn [bindR fst]. unfold f1. f_equal. strs.
  - assert (Q : np_glued d decl = (xs <- mapR name_of (map (fun x => mkVar (fst x) (snd x)) params) ;;
        convs <- mapR (fun p => x <- name_of p ;; t <- type_of p ;; Ok (np_conversion d x t)) (map (fun x => mkVar (fst x) (snd x)) params) ;;
        Ok (newline ++ "def " ++ cut3 f ++ "_np_glued (" ++ join ", " xs ++ "):" ++ newline ++
            (match concat convs with [] => "" | _ => "    " ++ join (newline ++ "    ") (concat convs) end) ++ newline ++
            "    return " ++ cut3 f ++ "_np(" ++ join ", " xs ++ ")" ++ newline)%string)) by (destruct K as [->|[->| ->]]; reflexivity).
    rewrite Q, Nm. cbn [bindR]. rewrite Ec. cbn [bindR]. rewrite Cc. unfold f1, f2. f_equal. unfold glue_lines. destruct (map (fun x => line (fst x)) conv); strs.
  - apply (layout_one " " f1 xs ("return " ++ s) (KwReturn :: ts)); try assumption; [right; reflexivity| |reflexivity].
    apply lexes_all. change (KwReturn :: ts) with ([KwReturn] ++ ts). apply lexes_str; [intros [|? ?]; reflexivity|exact X].
  - pose proof (reads_at 0 l _ _ R (Nat.le_0_l _) [] Logic.I) as Y. rewrite app_nil_r in Y. exact Y.
  - match goal with |- layout ?a _ _ => replace a with (newline ++ "def " ++ f2 ++ " " ++ "(" ++ join ", " xs ++ "):" ++ newline ++
      glue_lines (map (fun x => line (fst x)) conv) ++ newline ++ "    " ++ ("return " ++ f1 ++ "(" ++ join ", " xs ++ ")") ++ newline)%string by strs end.
    apply (layout_all " " f2 xs (map (fun x => line (fst x)) conv) _ ("return " ++ f1 ++ "(" ++ join ", " xs ++ ")")); try assumption; [right; reflexivity| | |reflexivity].
    + unfold lines. rewrite map_map. cbn [fst snd]. assert (I0 : forall x, In x conv -> py_name (fst x) = true).
      { intros x Hx. unfold conv in Hx. apply filter_In in Hx. destruct Hx as [Hx _]. rewrite Forall_forall in Nx'. apply Nx', in_map, Hx. }
      clear - I0. induction conv as [|x c IH]; constructor; [|apply IH; intros; apply I0; right; assumption].
      split; [apply lexes_all, conv_lex, I0; left; reflexivity|apply name_first, I0; left; reflexivity].
    + apply lexes_all. change ([KwReturn; TName f1; LP] ++ ?a) with ([KwReturn] ++ [TName f1] ++ [LP] ++ a).
      apply lexes_str; [intros [|? ?]; reflexivity|]. apply lexes_cat; [apply word_name, N1| |reflexivity|discriminate].
      apply lexes_str; [intros [|? ?]; reflexivity|]. apply lexes_cat; [apply (lexes_join ", "); [apply sep_comma|apply names_lex, Nx']|intros [|? ?] _; reflexivity|reflexivity|discriminate].
  - unfold lines. rewrite Forall_map. apply Forall_forall. intros x _. cbn [fst snd].
    pose proof (reads_at 0 8 _ _ (reads8 _ (conv_exp (fst x) d) eq_refl (conv_open (fst x) d)) (Nat.le_0_l _) [] Logic.I) as Y. rewrite app_nil_r in Y. split; [exact Y|reflexivity].
  - intros I ds dv TL A r F P V. unfold call_glued, lines. rewrite map_map. cbn [fst snd].
    assert (V0 : Forall2 (fun (p : string * ty) dv => named xs (map as_lists ds) (fst p) = Some (as_lists dv)) params ds).
    { unfold xs. clear - A ND. unfold xs in ND. induction A as [|[x u] dv ps ds A1 A IH]; [constructor|]. cbn [map fst] in *. inversion ND as [|? ? Q1 Q2]; subst. constructor.
      - cbn [fst named]. rewrite String.eqb_refl. reflexivity.
      - specialize (IH Q2). clear A1 A Q2 ND. cbn [named].
        assert (G : forall p dv0, In p ps -> named (map fst ps) (map as_lists ds) (fst p) = Some (as_lists dv0) -> (if String.eqb (fst p) x then Some (as_lists dv) else named (map fst ps) (map as_lists ds) (fst p)) = Some (as_lists dv0)).
        { intros p dv0 Hp Hn. destruct (String.eqb_spec (fst p) x) as [<-|_]; [|exact Hn]. exfalso. apply Q1, in_map, Hp. }
        revert G IH. generalize (named (map fst ps) (map as_lists ds)). generalize ds. clear Q1. induction ps as [|p ps IHp]; intros ds0 h G IH; inversion IH; subst; constructor.
        + apply G; [left; reflexivity|assumption].
        + apply IHp; [intros; apply G; [right|]; assumption|assumption]. }
    destruct (conv_run W lo hi d params ds _ Wok ND A V0) as [E' [Q [F2 _]]]. unfold conv. rewrite Q.
    assert (Mp : mapO E' xs = Some (map (fun dv => NA (arr_of dv)) ds)).
    { unfold xs. clear - F2. induction F2 as [|p dv ps ds H F2 IH]; [reflexivity|]. cbn [map mapO]. rewrite H, IH. reflexivity. }
    rewrite Mp. apply (M I r _ TL); try assumption.
    intros x d0 P0 Hx. unfold r, frame in Hx. rewrite named_in in Hx. rewrite named_in. destruct (named xs ds x) as [d1|] eqn:En; [|cbn [option_map] in Hx; destruct (smem x (map fst fns)); [|discriminate Hx]; destruct d0; discriminate Hx]. cbn [option_map] in Hx |- *. injection Hx as Hx.
    assert (P1 : proper d1).
    { clear - A En. unfold xs in En. induction A as [|[y u] dv ps ds A1 A IH]; [discriminate En|]. cbn [map fst named] in En. destruct (String.eqb x y); [|apply IH, En]. injection En as <-. apply (arg_proper lo hi u), A1. }
    rewrite (emb_inj d1 d0 P1 P0 Hx). reflexivity.
Qed.
Print Assumptions C45_program_partial.

(** ** the solver *)

Lemma mapO_imp {A B} (f g : A -> option B) l r : (forall x y, f x = Some y -> g x = Some y) -> mapO f l = Some r -> mapO g l = Some r.
Proof.
  intros H. revert r. induction l as [|x l IH]; intros r E; cbn [mapO] in *; [exact E|].
  destruct (f x) as [y|] eqn:F; [|discriminate E]. destruct (mapO f l) as [s|]; [|discriminate E]. rewrite (H x y F), (IH s eq_refl). exact E.
Qed.
Lemma rect_shape m n : same_dim m n = true -> same_shape true m n.
Proof.
  unfold same_dim. intros H. apply andb_prop in H. destruct H as [H C]. apply andb_prop in H. destruct H as [H L]. apply andb_prop in H. destruct H as [Rm Rn].
  apply Nat.eqb_eq in L. apply Nat.eqb_eq in C. destruct m as [|a m]; [discriminate Rm|]. destruct n as [|b n]; [discriminate Rn|]. cbn [num_cols] in C.
  unfold rectb in Rm, Rn. rewrite forallb_forall in Rm, Rn. rewrite C in Rm.
  assert (X : forall x, In x (a :: m) -> List.length x = List.length b) by (intros x Hx; apply Nat.eqb_eq, Rm, Hx).
  assert (Y : forall x, In x (b :: n) -> List.length x = List.length b) by (intros x Hx; apply Nat.eqb_eq, Rn, Hx).
  revert L X Y. generalize (a :: m), (b :: n), (List.length b). clear. induction l as [|x l IH]; intros [|y l0] k L X Y; try discriminate L; constructor.
  - split; [rewrite (X x), (Y y); auto; left; reflexivity|left; reflexivity].
  - apply (IH l0 k); [injection L as L; exact L|intros; apply X; right; assumption|intros; apply Y; right; assumption].
Qed.
Lemma slice_same {A} i j (l : list A) : skipn (Z.to_nat i) (firstn (Z.to_nat j) l) = between_ i j l.
Proof. unfold between_. rewrite firstn_skipn_comm. destruct (Nat.le_ge_cases (Z.to_nat i) (Z.to_nat j)) as [H|H].
  - rewrite (Nat.add_comm (Z.to_nat i)), Nat.sub_add by exact H. reflexivity.
  - replace (Z.to_nat j - Z.to_nat i) with 0 by lia. rewrite Nat.add_0_r.
    rewrite !skipn_all2; [reflexivity|rewrite firstn_length; lia|rewrite firstn_length; lia].
Qed.

Ltac ifT T := match type of T with (if ?c then _ else _) = _ => destruct c; [|discriminate T] end.
Ltac lw H := let Q := fresh in pose proof H as Q; cbn [map emb] in Q; rewrite Q; clear Q.
(** The models of the solver, with the definitions of the tensor functions (C23, C25) and
    of the selecting function, are such interpretations. *)
Theorem C45_solver S I fns : smt_model S I -> dsl I ->
  (forall a b, b <> 0%Z -> i_mod I a b = Some (smt_mod S a b)) ->
  (forall h p q c a b, chosen fns = Some (h, (p, q), (c, a, b)) ->
     forall x y, i_call I h [VInt x; VInt y] = eval I (bind2 p q x y) (Node KIte TInt [c; a; b])) ->
  tensor_like fns I.
Proof.
  intros M D Md Fn. assert (B : backend true I) by (exists S; exact M). pose proof (sm_core _ _ M) as C. pose proof (sm_lists _ _ M) as L.
  assert (Dv : forall a b, (0 < b)%Z -> i_div I a b = Some (a / b)%Z).
  { intros a b H. rewrite (sm_div _ _ M). unfold smt_div. rewrite (proj2 (Z.eqb_neq b 0)) by lia. unfold euclid_div. rewrite Z.sgn_pos, Z.abs_eq by lia. f_equal. lia. }
  assert (Pd : forall a b z, pdiv a b = Some z -> i_div I a b = Some z).
  { intros a b z. unfold pdiv. destruct (Z.ltb_spec 0 b); [|discriminate]. intros X. injection X as <-. apply Dv. assumption. }
  destruct (C22_list_functions_partial S C) as [Ll [La [Lg [_ [Lt [_ [_ [Ls Lw]]]]]]]].
  destruct (C22_matrix_functions_partial S C) as [_ [Ma [Mg [Mt [Mk [Ms [Mc [Mw _]]]]]]]].
  constructor.
  - exact Dv.
  - intros a b H. rewrite Md by lia. unfold smt_mod. rewrite (proj2 (Z.eqb_neq b 0)) by lia. unfold euclid_mod. rewrite Z.abs_eq by lia. reflexivity.
  - intros f ds v T. unfold tmean in T.
    destruct ds as [|[a|bo|l|m|te] [|[b|bo'|r|n|te'] [|[c|bo''|u|w|te''] [|? ?]]]]; try discriminate T; cbn [map emb].
    + (* scalar, vector *)
      destruct (dget vec_scalar f) as [g|] eqn:G; [|discriminate T]. destruct (mapO (g a) r) as [res|] eqn:R; [|discriminate T]. injection T as <-. cbn [emb].
      assert (X : exists fm g', In (f, fm, g') (with_scalar I a) /\ forall x y, g a x = Some y -> g' x = Some y).
      { cbn [dget vec_scalar] in G. repeat match type of G with (if String.eqb f ?s then _ else _) = _ => destruct (String.eqb_spec f s) as [->|_]; [injection G as <-|] end; try discriminate G; unfold with_scalar.
        - eexists _, _. split; [left; reflexivity|]. unfold tadd. intros x y X. rewrite Z.add_comm. exact X.
        - eexists _, _. split; [do 2 right; left; reflexivity|]. unfold tmul. intros x y X. rewrite Z.mul_comm. exact X.
        - eexists _, _. split; [right; left; reflexivity|]. intros x y X. exact X.
        - eexists _, _. split; [do 3 right; left; reflexivity|]. intros x y X. apply Pd. exact X.
        - eexists _, _. split; [do 4 right; left; reflexivity|]. intros x y X. exact X.
        - eexists _, _. split; [do 5 right; left; reflexivity|]. intros x y X. apply Pd. exact X. }
      destruct X as [fm [g' [Hin Hg]]]. rewrite (C23_vec_scalar true I f fm a g' B D Hin). rewrite (mapO_imp _ _ _ _ Hg R). reflexivity.
    + (* scalar, matrix *)
      destruct (dget mat_scalar f) as [g|] eqn:G; [|discriminate T]. unfold rows_of in T. destruct (mapO (mapO (g a)) n) as [res|] eqn:R; [|discriminate T].
      unfold rows in T. destruct (rectb res); [|discriminate T]. injection T as <-. cbn [emb].
      assert (X : exists fv g', In (fv, f, g') (with_scalar I a) /\ forall x y, g a x = Some y -> g' x = Some y).
      { cbn [dget mat_scalar] in G. repeat match type of G with (if String.eqb f ?s then _ else _) = _ => destruct (String.eqb_spec f s) as [->|_]; [injection G as <-|] end; try discriminate G; unfold with_scalar.
        - eexists _, _. split; [left; reflexivity|]. unfold tadd. intros x y X. rewrite Z.add_comm. exact X.
        - eexists _, _. split; [do 2 right; left; reflexivity|]. unfold tmul. intros x y X. rewrite Z.mul_comm. exact X.
        - eexists _, _. split; [right; left; reflexivity|]. intros x y X. exact X.
        - eexists _, _. split; [do 3 right; left; reflexivity|]. intros x y X. apply Pd. exact X.
        - eexists _, _. split; [do 4 right; left; reflexivity|]. intros x y X. exact X.
        - eexists _, _. split; [do 5 right; left; reflexivity|]. intros x y X. apply Pd. exact X. }
      destruct X as [fv [g' [Hin Hg]]]. rewrite (C23_matrix_scalar_partial true I fv f a g' B D Hin n (or_introl eq_refl)).
      rewrite (mapO_imp _ (mapO g') _ _ (fun x y => mapO_imp _ _ _ _ Hg) R). reflexivity.
    + (* vector *)
      destruct (String.eqb_spec f "list_length") as [->|_]; [injection T as <-; lw (L "list_length" [DL l] _ eq_refl); rewrite Ll; reflexivity|].
      destruct (String.eqb_spec f "reduce_sum") as [->|_]; [injection T as <-; apply (C25_reduce_sum true I B D)|].
      destruct (String.eqb_spec f "reduce_mul") as [->|_]; [injection T as <-; apply (C25_reduce_mul true I B D)|].
      destruct (String.eqb_spec f "reduce_max") as [->|_]; [|discriminate T]. destruct l as [|x l]; [discriminate T|]. injection T as <-.
      rewrite (reduce_max_is _ _ (backend_lib _ _ B) (D reduce_max ltac:(decl))). cbn [emb]. do 2 f_equal.
      clear. revert x. induction l as [|y l IH]; intros x; [reflexivity|]. cbn [maxval fold_right]. rewrite IH.
      assert (Q : forall l a b, Z.max a (fold_right Z.max b l) = fold_right Z.max (Z.max a b) l).
      { clear. induction l as [|z l IH]; intros a b; [reflexivity|]. cbn [fold_right]. rewrite <- IH. lia. }
      rewrite !Q. f_equal. lia.
    + (* vector, number *)
      destruct (String.eqb_spec f "list_get") as [->|_].
      { destruct (inb l b) eqn:Ib; [|discriminate T]. injection T as <-. lw (L "list_get" [DL l; DZ b] _ eq_refl). cbn [emb].
        unfold inb in Ib. apply andb_prop in Ib. destruct Ib as [I1 I2]. apply Z.leb_le in I1. apply Z.ltb_lt in I2.
        rewrite (Lg l b 0%Z I2); [reflexivity|]. intros ->. cbn in I2. lia. }
      destruct (String.eqb_spec f "list_append") as [->|_]; [injection T as <-; lw (L "list_append" [DL l; DZ b] _ eq_refl); rewrite La; reflexivity|].
      destruct (String.eqb_spec f "list_take") as [->|_]; [|discriminate T]. destruct (Z.leb 0 b); [|discriminate T]. injection T as <-.
      lw (L "list_take" [DL l; DZ b] _ eq_refl); rewrite Lt. reflexivity.
    + (* slices of vectors *)
      destruct (Z.leb 0 b && Z.leb 0 c); [|discriminate T].
      destruct (String.eqb_spec f "vec_slice") as [->|_]; [injection T as <-; lw (L "vec_slice" [DL l; DZ b; DZ c] _ eq_refl); rewrite Ls, slice_same; reflexivity|].
      destruct (String.eqb_spec f "vec_slice_with_length") as [->|_]; [|discriminate T]. injection T as <-. lw (L "vec_slice_with_length" [DL l; DZ b; DZ c] _ eq_refl); rewrite Lw, slice_same. reflexivity.
    + (* vectors *)
      destruct (dget vec_elemwise f) as [g|] eqn:G; [|discriminate T]. destruct (Nat.eqb_spec (List.length l) (List.length r)) as [Len|]; [|discriminate T].
      destruct (zipO g l r) as [res|] eqn:R; [|discriminate T]. injection T as <-.
      assert (X : exists f' g', f = ("vec_" ++ f')%string /\ In (f', g') (elementwise I) /\ forall x y z, g x y = Some z -> g' x y = Some z).
      { cbn [dget vec_elemwise] in G. repeat match type of G with (if String.eqb f ?s then _ else _) = _ => destruct (String.eqb_spec f s) as [->|_]; [injection G as <-|] end; try discriminate G; unfold elementwise.
        - exists "elemwise_add". eexists. split; [reflexivity|split; [left; reflexivity|intros x y z X; exact X]].
        - exists "elemwise_sub". eexists. split; [reflexivity|split; [right; left; reflexivity|intros x y z X; exact X]].
        - exists "elemwise_mul". eexists. split; [reflexivity|split; [do 2 right; left; reflexivity|intros x y z X; exact X]].
        - exists "elemwise_div". eexists. split; [reflexivity|split; [do 3 right; left; reflexivity|intros x y z X; apply Pd; exact X]]. }
      destruct X as [f' [g' [-> [Hin Hg]]]]. rewrite (C23_vec_elemwise true I f' g' B D Hin l r Len).
      change (pointwise g' l r) with (zipO g' l r). unfold zipO in *. rewrite (mapO_imp _ (fun p => g' (fst p) (snd p)) _ _ (fun p z => Hg (fst p) (snd p) z) R). reflexivity.
    + (* matrix, number *)
      destruct (rectb m) eqn:Rm; [|discriminate T]. cbn [negb] in T.
      destruct (String.eqb_spec f "matrix_get") as [->|_].
      { destruct (inb m b) eqn:Ib; [|discriminate T]. injection T as <-. lw (L "matrix_get" [DM m; DZ b] _ eq_refl). cbn [emb].
        unfold inb in Ib. apply andb_prop in Ib. destruct Ib as [I1 I2]. apply Z.leb_le in I1. apply Z.ltb_lt in I2.
        rewrite (Mg m b [] I2); [reflexivity|]. intros ->. cbn in I2. lia. }
      destruct (String.eqb_spec f "matrix_take") as [->|_].
      { destruct (Z.leb 0 b); [|discriminate T]. unfold rows in T. ifT T. injection T as <-. lw (L "matrix_take" [DM m; DZ b] _ eq_refl); rewrite Mk. reflexivity. }
      destruct (String.eqb_spec f "matrix_tail") as [->|_]; [|discriminate T]. destruct (Z.leb 0 b); [|discriminate T]. unfold rows in T. ifT T. injection T as <-.
      lw (L "matrix_tail" [DM m; DZ b] _ eq_refl); rewrite Mt. reflexivity.
    + (* slices of matrices *)
      destruct (Z.leb 0 b && Z.leb 0 c && rectb m); [|discriminate T]. unfold rows in T.
      destruct (String.eqb_spec f "matrix_row_slice") as [->|_].
      { ifT T. injection T as <-. lw (L "matrix_row_slice" [DM m; DZ b; DZ c] _ eq_refl); rewrite Ms, slice_same. reflexivity. }
      destruct (String.eqb_spec f "matrix_row_slice_with_length") as [->|_].
      { ifT T. injection T as <-. lw (L "matrix_row_slice_with_length" [DM m; DZ b; DZ c] _ eq_refl). unfold matrix_row_slice_with_length. rewrite Ms, slice_same. reflexivity. }
      destruct (String.eqb_spec f "matrix_col_slice") as [->|_].
      { ifT T. injection T as <-. lw (L "matrix_col_slice" [DM m; DZ b; DZ c] _ eq_refl); rewrite Mc. cbn [emb]. do 2 f_equal. apply map_ext. intros r. apply slice_same. }
      destruct (String.eqb_spec f "matrix_col_slice_with_length") as [->|_]; [|discriminate T].
      ifT T. injection T as <-. lw (L "matrix_col_slice_with_length" [DM m; DZ b; DZ c] _ eq_refl); rewrite Mw. cbn [emb]. do 2 f_equal. apply map_ext. intros r. apply slice_same.
    + (* matrix, vector *)
      destruct (String.eqb_spec f "matrix_vec_mul") as [->|_].
      { destruct (negb (Nat.eqb (List.length r) 0) && rectb m && Nat.eqb (num_cols m) (List.length r)) eqn:Q; [|discriminate T]. injection T as <-.
        apply andb_prop in Q. destruct Q as [Q Cn]. apply andb_prop in Q. destruct Q as [Nz Rm]. apply Nat.eqb_eq in Cn.
        apply (C25_matrix_vec_mul_partial true I B D); [intros ->; discriminate Nz|]. destruct m as [|a m]; [constructor|]. cbn [num_cols] in Cn.
        unfold rectb in Rm. rewrite forallb_forall in Rm. apply Forall_forall. intros x Hx. rewrite <- Cn. apply Nat.eqb_eq, Rm, Hx. }
      destruct (String.eqb_spec f "matrix_append") as [->|_]; [|discriminate T]. destruct (rectb m && Nat.eqb (num_cols m) (List.length r)); [|discriminate T].
      unfold rows in T. ifT T. injection T as <-. lw (L "matrix_append" [DM m; DL r] _ eq_refl); rewrite Ma. reflexivity.
    + (* matrices *)
      destruct (dget mat_elemwise f) as [g|] eqn:G; [|discriminate T]. destruct (same_dim m n) eqn:Sd; [|discriminate T]. unfold rows_of in T.
      destruct (zipO (zipO g) m n) as [res|] eqn:R; [|discriminate T]. unfold rows in T. destruct (rectb res); [|discriminate T]. injection T as <-.
      assert (X : exists f' g', f = ("matrix_" ++ f')%string /\ In (f', g') (elementwise I) /\ forall x y z, g x y = Some z -> g' x y = Some z).
      { cbn [dget mat_elemwise] in G. repeat match type of G with (if String.eqb f ?s then _ else _) = _ => destruct (String.eqb_spec f s) as [->|_]; [injection G as <-|] end; try discriminate G; unfold elementwise.
        - exists "elemwise_add". eexists. split; [reflexivity|split; [left; reflexivity|intros x y z X; exact X]].
        - exists "elemwise_sub". eexists. split; [reflexivity|split; [right; left; reflexivity|intros x y z X; exact X]].
        - exists "elemwise_mul". eexists. split; [reflexivity|split; [do 2 right; left; reflexivity|intros x y z X; exact X]].
        - exists "elemwise_div". eexists. split; [reflexivity|split; [do 3 right; left; reflexivity|intros x y z X; apply Pd; exact X]]. }
      destruct X as [f' [g' [-> [Hin Hg]]]]. rewrite (C23_matrix_elemwise_partial true I f' g' B D Hin m n (rect_shape m n Sd)).
      change (rowwise (pointwise g') m n) with (zipO (zipO g') m n). unfold zipO in *.
      rewrite (mapO_imp _ (fun p => mapO (fun p => g' (fst p) (snd p)) (combine (fst p) (snd p))) _ _ (fun p z => mapO_imp _ (fun p => g' (fst p) (snd p)) _ _ (fun p z => Hg (fst p) (snd p) z)) R). reflexivity.
  - intros h g m n Hg Sd. exact (C23_matrix_selection_partial true I h g B D Hg m n (rect_shape m n Sd)).
  - exact Fn.
Qed.
Print Assumptions C45_solver.

(** ** a case *)

(** the greater of two numbers, element by element, and 10 more: pixels of 8 bits *)
Definition sel_fn : expr := Node KFnDecl (TFn [TInt; TInt; TInt])
  [Atom (PStr "select_two_args"); Node KIte TInt [Node KGt TBool [var "int_x" TInt; var "int_y" TInt]; var "int_x" TInt; var "int_y" TInt];
   var "int_x" TInt; var "int_y" TInt].
Definition case_fns : list (string * expr) := [("select_two_args", sel_fn)].
Definition case_body : expr :=
  Node KCall (TMatrix TInt) [Atom (PStr "matrix_scalar_add"); var "k" TInt;
    Node KCall (TMatrix TInt) [Atom (PStr "matrix_selection_two_args"); var "base" (TMatrix TInt); var "active" (TMatrix TInt);
      var "select_two_args" (TFn [TInt; TInt; TInt])]].
Definition case_params : list (string * ty) := [("base", TMatrix TInt); ("active", TMatrix TInt); ("k", TInt)].
Definition case_fn : expr :=
  Node KFnDeclRec (TFn [TMatrix TInt; TMatrix TInt; TMatrix TInt; TInt])
    (Atom (PStr "lighten_ps") :: case_body :: map (fun x => mkVar (fst x) (snd x)) case_params).
Definition byte (z : Z) : Z := (z mod 256)%Z.
Definition case_args : list dval := [DM [[1; 5]; [7; 2]]; DM [[3; 4]; [6; 9]]; DZ 10]%Z.

Lemma case_tensor : tensor_like case_fns demo_smt.
Proof.
  apply (C45_solver std); [apply demo_smt_model|apply demo_smt_dsl|..].
  - intros a b H. cbn. unfold smt_mod. rewrite (proj2 (Z.eqb_neq b 0) H). reflexivity.
  - intros h p q c a b Ch. vm_compute in Ch. injection Ch as <- <- <- <- <- <-. intros x y.
    change (Some (VInt (if Z.ltb y x then x else y)) = eval demo_smt (bind2 "int_x" "int_y" x y) (Node KIte TInt [Node KGt TBool [var "int_x" TInt; var "int_y" TInt]; var "int_x" TInt; var "int_y" TInt])).
    cbn. destruct (Z.ltb y x); reflexivity.
Qed.
Lemma case_shown : shown case_fns case_body (TMatrix TInt) 5.
Proof.
  eapply s_sum; [reflexivity|apply s_var; [reflexivity|discriminate]|].
  eapply (s_select case_fns) with (p := "int_x") (q := "int_y"); [reflexivity|discriminate|apply s_var; [reflexivity|discriminate]|apply s_var; [reflexivity|discriminate]|..].
  - cbn. intros x [<-|[<-|[]]]; split; discriminate.
  - eapply b_cmps; [reflexivity|apply a_first|apply a_second|left; discriminate].
  - apply a_first.
  - apply a_second.
  - exists "int_x". cbn. auto.
Qed.
Ltac value d := exists d; repeat split; try (cbn; lia); try reflexivity; try (repeat constructor; cbn; lia).
Lemma case_fits : fits 0 255 demo_smt (select_fits case_fns 0 255 demo_smt) (frame case_fns (map fst case_params) (map emb case_args)) case_body.
Proof.
  split; [value (DM [[13; 15]; [17; 19]]%Z)|]. split; [split; [|split; [|exact Logic.I]]|].
  - split; [value (DZ 10)|exact Logic.I].
  - split; [value (DM [[3; 5]; [7; 9]]%Z)|]. split; [split; [value (DM [[1; 5]; [7; 2]]%Z)|exact Logic.I]|]. split; [split; [value (DM [[3; 4]; [6; 9]]%Z)|exact Logic.I]|].
    exists [[1; 5]; [7; 2]]%Z, [[3; 4]; [6; 9]]%Z. repeat split; try reflexivity; [discriminate|].
    intros x y H. cbn in H.
    assert (R : (0 <= x <= 255 /\ 0 <= y <= 255)%Z) by (repeat (destruct H as [H|H]; [injection H as <- <-; lia|]); destruct H).
    clear H. assert (Fx : fits 0 255 demo_smt (fun _ _ => False) (bind2 "int_x" "int_y" x y) (var "int_x" TInt)) by (split; [exists (DZ x); repeat split; cbn; lia|exact Logic.I]).
    assert (Fy : fits 0 255 demo_smt (fun _ _ => False) (bind2 "int_x" "int_y" x y) (var "int_y" TInt)) by (split; [exists (DZ y); repeat split; cbn; lia|exact Logic.I]).
    repeat constructor; try assumption; try apply Fx; try apply Fy.
    exists (DB (Z.ltb y x)). repeat split.
  - exists [DZ 10; DM [[3; 5]; [7; 9]]]%Z, (DM [[13; 15]; [17; 19]]%Z). repeat split; repeat constructor.
Qed.

(** the hypotheses are met, and the program computes [[13; 15]; [17; 19]] *)
Example C45_case :
  tensor_like case_fns demo_smt /\ shown case_fns case_body (TMatrix TInt) 5 /\
  Forall2 (fun x d => arg_ok 0 255 (snd x) d) case_params case_args /\
  fits 0 255 demo_smt (select_fits case_fns 0 255 demo_smt) (frame case_fns (map fst case_params) (map emb case_args)) case_body /\
  np_kernel case_fns UINT_8 20 case_fn =
    Ok (newline ++ "def lighten_np (base, active, k):" ++ newline ++
        "    return (k) + (np.where(np.greater(base, active), base, active))" ++ newline)%string /\
  np_glued UINT_8 case_fn =
    Ok (newline ++ "def lighten_np_glued (base, active, k):" ++ newline ++
        "    base = np.array(base).astype(np.uint8)" ++ newline ++ "    active = np.array(active).astype(np.uint8)" ++ newline ++
        "    return lighten_np(base, active, k)" ++ newline)%string /\
  match parse 60 GCond (lex "" "(k) + (np.where(np.greater(base, active), base, active))") with
  | Some (p, []) => call_glued byte ["base"; "active"; "k"] [("base", conv_exp "base" UINT_8); ("active", conv_exp "active" UINT_8)] p (map as_lists case_args) =
                    Some (NA (arr_of (DM [[13; 15]; [17; 19]]%Z)))
  | _ => False
  end.
Proof.
  split; [apply case_tensor|]. split; [apply case_shown|]. split; [|split; [apply case_fits|]].
  - repeat constructor; cbn; try lia.
  - split; [reflexivity|]. split; [reflexivity|]. vm_compute. reflexivity.
Qed.

(** ** where the text is wrong *)

(** the value of a text; [written] determines the expression (C13_unambiguous) *)
Definition text_value (W : Z -> Z) (E : string -> option nval) (s : string) : option nval :=
  match parse 100 GCond (lex "" s) with Some (p, []) => npvalue W E p | _ => None end.
(** lifted value, generated text, and value of the text *)
Definition outcome (fns : list (string * expr)) (xs : list string) (ds : list dval) (e : expr) : option val * res string * option nval :=
  let s := x <- helper fns UINT_8 50 e [] ;; Ok (fst x) in
  (eval demo_smt (frame fns xs (map emb ds)) e, s,
   match s with Ok s => text_value byte (named xs (map (fun d => NA (arr_of d)) ds)) s | Err _ => None end).
Definition ints (l : list Z) : option nval := Some (NA (AV (map EI l))).
Definition int (z : Z) : option nval := Some (NA (AS (EI z))).
Definition call (f : string) (t : ty) (args : list expr) : expr := Node KCall t (Atom (PStr f) :: args).
Definition li1 : ty := TList TInt.
Definition mi : ty := TMatrix TInt.

(** [list_tail] keeps the first elements instead of dropping them; [matrix_length] counts
    elements, not rows; [list_prepend] exchanges its arguments; [matrix_prepend] is not
    known; [list_concat] passes an argument that NumPy does not know. *)
Theorem C45_functions_refuted :
  outcome [] ["a"] [DL [1; 2; 3]]%Z (call "list_tail" li1 [var "a" li1; lit 1]) = (Some (vl [2; 3]%Z), Ok "a[:1]", ints [1]%Z) /\
  outcome [] ["m"] [DM [[1; 2]; [3; 4]]]%Z (call "matrix_length" TInt [var "m" mi]) = (Some (VInt 2), Ok "m.size", int 4) /\
  outcome [] ["a"] [DL [2; 3]]%Z (call "list_prepend" li1 [lit 1; var "a" li1]) =
    (Some (vl [1; 2; 3]%Z), Ok "np.concatenate([np.expand_dims(a, axis=0), 1], axis=0)", None) /\
  outcome [] ["a"; "m"] [DL [1; 2]; DM [[3; 4]]]%Z (call "matrix_prepend" mi [var "a" li1; var "m" mi]) = (Some (vm [[1; 2]; [3; 4]]%Z), Err ExNYI, None) /\
  outcome [] ["a"; "b"] [DL [1]; DL [2]]%Z (call "list_concat" li1 [var "a" li1; var "b" li1]) =
    (Some (vl [1; 2]%Z), Ok "np.concatenate([a, b], dim=0)", None).
Proof. vm_compute. auto. Qed.
Print Assumptions C45_functions_refuted.

(** Missing parentheses: around the operand of [not] and of [==], and around an operand
    that is indexed. *)
Theorem C45_parentheses_refuted :
  outcome [] ["p"; "q"] [DB true; DB true] (Node KNot TBool [Node KOr TBool [var "p" TBool; var "q" TBool]]) =
    (Some (VBool false), Ok "not (p) or (q)", Some (NA (AS (EB true)))) /\
  outcome [] ["x"; "y"] [DZ 5; DZ 5]%Z
    (Node KEq TBool [var "x" TInt; Node KIte TInt [Node KGt TBool [var "y" TInt; lit 0]; var "x" TInt; lit 7]]) =
    (Some (VBool true), Ok "x == x if y > 0 else 7", Some (NA (AS (EB true)))) /\
  outcome [] ["x"; "y"] [DZ 5; DZ 0]%Z
    (Node KEq TBool [var "x" TInt; Node KIte TInt [Node KGt TBool [var "y" TInt; lit 0]; var "x" TInt; lit 7]]) =
    (Some (VBool false), Ok "x == x if y > 0 else 7", int 7) /\
  outcome [] ["x"; "y"] [DL [1; 2]; DL [10; 20]]%Z (call "list_get" TInt [call "vec_elemwise_add" li1 [var "x" li1; var "y" li1]; lit 0]) =
    (Some (VInt 11), Ok "(x) + (y)[0]", ints [11; 12]%Z).
Proof. vm_compute. auto. Qed.
Print Assumptions C45_parentheses_refuted.

(** The third summand is dropped.  The body of another function is put in place of a call
    with the names of its parameters. *)
Definition twice_fn : expr := Node KFnDecl (TFn [TInt; TInt]) [Atom (PStr "twice"); Node KMul TInt [lit 2; var "x" TInt]; var "x" TInt].
Theorem C45_arguments_refuted :
  outcome [] ["x"; "y"; "z"] [DZ 1; DZ 2; DZ 3]%Z (Node KAdd TInt [var "x" TInt; var "y" TInt; var "z" TInt]) = (Some (VInt 6), Ok "(x) + (y)", int 3) /\
  outcome [("twice", twice_fn)] ["x"; "y"] [DZ 1; DZ 20]%Z (call "twice" TInt [var "y" TInt]) = (Some (VInt 40), Ok "(2) * (x)", int 2).
Proof. vm_compute. auto. Qed.
Print Assumptions C45_arguments_refuted.

(** Selections.  Without a function with the expected name there is an exception; with two of
    them the last one is taken, whatever the argument says; an argument with the name of a
    parameter is replaced by itself for ever. *)
Definition sel2_fn : expr := Node KFnDecl (TFn [TInt; TInt; TInt])
  [Atom (PStr "min_select_two_args"); Node KIte TInt [Node KGt TBool [var "int_x" TInt; var "int_y" TInt]; var "int_y" TInt; var "int_x" TInt];
   var "int_x" TInt; var "int_y" TInt].
Definition selection (x y f : string) : expr :=
  call "matrix_selection_two_args" mi [var x mi; var y mi; var f (TFn [TInt; TInt; TInt])].
Theorem C45_selection_refuted :
  outcome [("larger", sel_fn)] ["a"; "b"] [DM [[1; 5]]; DM [[3; 4]]]%Z (selection "a" "b" "larger") = (Some (vm [[3; 5]]%Z), Err ExKey, None) /\
  outcome [("select_two_args", sel_fn); ("min_select_two_args", sel2_fn)] ["a"; "b"] [DM [[1; 5]]; DM [[3; 4]]]%Z (selection "a" "b" "select_two_args") =
    (Some (vm [[3; 5]]%Z), Ok "np.where(np.greater(a, b), b, a)", Some (NA (AM [[EI 1; EI 4]]))) /\
  (eval demo_smt (frame case_fns ["int_x"; "b"] (map emb [DM [[1; 5]]; DM [[3; 4]]]%Z)) (selection "int_x" "b" "select_two_args") = Some (vm [[3; 5]]%Z) /\
   forall n s, helper case_fns UINT_8 n (selection "int_x" "b" "select_two_args") [] <> Ok s).
Proof.
  split; [vm_compute; reflexivity|]. split; [vm_compute; reflexivity|]. split; [vm_compute; reflexivity|].
  assert (X : forall n, helper case_fns UINT_8 n (var "int_x" TInt) [("int_x", var "int_x" mi); ("int_y", var "b" mi)] = Err ExFuel /\
                        helper case_fns UINT_8 n (var "int_x" mi) [("int_x", var "int_x" mi); ("int_y", var "b" mi)] = Err ExFuel).
  { induction n as [|n [_ IH]]; [split; reflexivity|]. destruct n as [|n]; [split; reflexivity|]. cbn [helper mapR bindR var np_arith np_rel dget String.eqb Ascii.eqb Bool.eqb].
    cbn [helper var] in IH. split; exact IH. }
  intros [|n] s; [discriminate|]. destruct n as [|n]; [discriminate|]. destruct n as [|n]; [discriminate|].
  change (helper case_fns UINT_8 (S (S (S n))) (selection "int_x" "b" "select_two_args") []) with
    (tc <- (ps <- mapR (fun a => helper case_fns UINT_8 (S n) a [("int_x", var "int_x" mi); ("int_y", var "b" mi)]) [var "int_x" TInt; var "int_y" TInt] ;;
            let ts := map snd ps in let arg i := match nth_error ps i with Some x => Ok (fst x) | None => Err ExIndex end in
            x <- arg 0 ;; y <- arg 1 ;; if forallb is_int ts then Ok (x ++ " > " ++ y, Some TBool)%string else Ok ("np.greater" ++ "(" ++ x ++ ", " ++ y ++ ")", Some (TList TBool))%string) ;;
     ta <- helper case_fns UINT_8 (S (S n)) (var "int_x" TInt) [("int_x", var "int_x" mi); ("int_y", var "b" mi)] ;;
     tb <- helper case_fns UINT_8 (S (S n)) (var "int_y" TInt) [("int_x", var "int_x" mi); ("int_y", var "b" mi)] ;;
     Ok ("np.where(" ++ fst tc ++ ", " ++ fst ta ++ ", " ++ fst tb ++ ")", Some mi)%string).
  cbn [mapR]. rewrite (proj1 (X (S n))). discriminate.
Qed.
Print Assumptions C45_selection_refuted.

(** Values.  Vectors of different lengths are stretched by NumPy; 8 bits are not enough
    for a sum; a negative divisor. *)
Theorem C45_values_refuted :
  snd (outcome [] ["x"; "y"] [DL [1]; DL [2; 3]]%Z (call "vec_elemwise_add" li1 [var "x" li1; var "y" li1])) = ints [3; 4]%Z /\
  eval demo_smt (frame [] ["x"; "y"] (map emb [DL [1]; DL [2; 3]]%Z)) (call "vec_elemwise_add" li1 [var "x" li1; var "y" li1]) <> Some (vl [3; 4]%Z) /\
  outcome [] ["x"; "y"] [DL [200]; DL [100]]%Z (call "vec_elemwise_add" li1 [var "x" li1; var "y" li1]) = (Some (vl [300]%Z), Ok "(x) + (y)", ints [44]%Z) /\
  outcome [] ["x"; "y"] [DZ 7; DZ (-2)]%Z (Node KAdd TInt [lit 10; Node KDiv TInt [var "x" TInt; var "y" TInt]]) = (Some (VInt 7), Ok "(10) + ((x) // (y))", int 6).
Proof. vm_compute. repeat split; discriminate. Qed.
Print Assumptions C45_values_refuted.
