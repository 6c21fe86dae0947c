(** C56: the MLX, TensorFlow and PyTorch text of a lifted expression, read by the rules of
    Python, has the value of the expression. *)

From Coq Require Import String Ascii List ZArith Bool Lia.
From Verif Require Import Ast Semantics Dict SexpModel SexpProofs SmtPrint PyText PyGram PyParse PyMean SmtPrelude RktModel ListOps LibSem
  TensModel TensDemo Properties_Tens NpModel NpSem NpProofs NpProofs2 NpProofs3 NpProofs4 NpProofs5 Properties_Np AlModel AlSem AlProofs AlProofs2 AlProofs3.
Import ListNotations.
Local Open Scope string_scope.
Local Open Scope list_scope.

(** ** the text of an expression *)

(** Full statement (false, see below): for every lifted expression and all inputs.
    Missing: as for NumPy (C45_text_partial), and what the library lacks ([portable] and
    [select_ok], AlSem.v).

    The text that is generated is written according to the grammar of Python for one
    expression; that expression has the value of the lifted expression.  [m] says whether
    the text multiplies matrices, for which MLX needs elements of type float32. *)
Theorem C56_text_partial L W lo hi fns d e t l :
  (forall z, (lo <= z <= hi)%Z -> W z = z) -> is_float d = false -> select_ok L fns -> shown fns e t l -> portable L d e = true ->
  exists N s p m, (forall n, N <= n -> lhelper L fns d n e [] = Ok (s, Some t, m)) /\ written s p /\
    forall I r E fl, (m = true -> L = MLX -> fl = true) -> tensor_like fns I -> same_vars r E -> fits lo hi I (select_fits fns lo hi I) r e ->
      forall dv, proper dv -> eval I r e = Some (emb dv) -> lvalue L W fl E p = Some (NA (arr_of dv)).
Proof.
  intros Wok Dint Sel Sh Po. destruct (shown_lright L W lo hi fns d Wok Dint Sel e t l Sh Po) as [p [m [_ [T M]]]].
  destruct (T [] (fresh_nil e)) as [N [s [ts [H [X R]]]]]. exists N, s, p, m. split; [exact H|]. split; [|exact M].
  unfold written. specialize (X "" eq_refl). assert (Q : (s ++ "" = s)%string) by (clear; induction s; cbn; congruence). rewrite Q in X. rewrite X. cbn [lex flush].
  pose proof (reads_at 0 l _ _ R (Nat.le_0_l _) [] Logic.I) as Y. rewrite app_nil_r in *. exact Y.
Qed.
Print Assumptions C56_text_partial.

(** ** the two functions of the program *)

(** whether all arrays that are made get elements of type float32 *)
Definition all_float32 (l : list (string * pexp)) : bool :=
  forallb (fun x => match snd x with
                    | PCall _ [_; PAttr _ t] | PCall _ [_; PKw _ (PAttr _ t)] => String.eqb t "float32"
                    | _ => false
                    end) l.
(** assignments and calls as for NumPy *)
Fixpoint lassign (L : lib) (W : Z -> Z) (fl : bool) (E : string -> option nval) (l : list (string * pexp)) : option (string -> option nval) :=
  match l with
  | [] => Some E
  | (x, p) :: l => match lvalue L W fl E p with
                   | Some v => lassign L W fl (fun y => if String.eqb y x then Some v else E y) l
                   | None => None
                   end
  end.
Definition lcall_glued (L : lib) (W : Z -> Z) (xs : list string) (l : list (string * pexp)) (body : pexp) (args : list nval) : option nval :=
  let fl := all_float32 l in
  match lassign L W fl (named xs args) l with
  | Some E => match mapO E xs with Some vs => lvalue L W fl (named xs vs) body | None => None end
  | None => None
  end.

(** ** conversions *)
Definition type_name (L : lib) (d : dtype) (m : bool) : string :=
  let f := match d with FLOAT => "float32" | INT32 => "int32" | UINT_8 => "uint8" end in
  match L with TF => f | _ => if m then "float32" else f end.
Definition lconv_tokens (L : lib) (x t : string) : list tok :=
  match L with
  | MLX => lhead MLX "array" ++ [TName x; Comma; TName "mx"; Dot; TName t; RP]
  | TF => lhead TF "convert_to_tensor" ++ [TName x; Comma; TName "dtype"; Assign; TName "tf"; Dot; TName t; RP]
  | TORCH => lhead TORCH "tensor" ++ [TName x; Comma; TName "dtype"; Assign; TName "torch"; Dot; TName t; RP]
  end.
Definition lconv_exp (L : lib) (x t : string) : pexp :=
  match L with
  | MLX => PCall (lfn MLX "array") [PName x; lfn MLX t]
  | TF => PCall (lfn TF "convert_to_tensor") [PName x; PKw "dtype" (lfn TF t)]
  | TORCH => PCall (lfn TORCH "tensor") [PName x; PKw "dtype" (lfn TORCH t)]
  end.

Lemma opened_lib_kwe L g k ta a tb b : at_level 0 ta a -> at_level 0 tb b ->
  opened (lhead L g ++ ta ++ Comma :: TName k :: Assign :: tb ++ [RP]) (PCall (lfn L g) [a; PKw k b]).
Proof.
  intros A B ts1 q rest P. unfold lhead. rewrite <- app_assoc. rewrite <- app_assoc. cbn [app]. rewrite <- app_assoc. cbn [app].
  apply (opened_name (module L) (Dot :: TName g :: LP :: ta ++ Comma :: TName k :: Assign :: tb ++ RP :: ts1)). apply r_attr; [reflexivity|].
  apply (r_call (lfn L g) _ [(false, a); (false, PKw k b)] ts1); [|exact P].
  assert (A' := A (Comma :: TName k :: Assign :: tb ++ RP :: ts1) Logic.I). cbn [goal_of] in A'.
  apply (r_item RP false [] _ a (TName k :: Assign :: tb ++ RP :: ts1)); [apply (starts_expr _ _ _ _ A')..|exact A'|].
  apply (r_kw_last [(false, a)] k).
  - assert (N := at_lower 0 8 _ _ (Nat.le_0_l _) (le_n _) (opened_level _ _ (opened_name k))). exact (N (Assign :: tb ++ RP :: ts1) Logic.I).
  - exact (B (RP :: ts1) Logic.I).
Qed.
Lemma lconv_open L x t : opened (lconv_tokens L x t) (lconv_exp L x t).
Proof.
  assert (X : forall y, at_level 0 [TName y] (PName y)) by (intros y; apply (reads_at 0 8); [apply reads8; [reflexivity|apply opened_name]|lia]).
  assert (Y : forall L, at_level 0 [TName (module L); Dot; TName t] (lfn L t)).
  { intros L'. apply (reads_at 0 8); [|lia]. apply reads8; [reflexivity|]. apply (opened_attr [TName (module L')] (PName (module L'))); [apply opened_name|reflexivity]. }
  destruct L; unfold lconv_tokens, lconv_exp.
  - apply (opened_lib MLX "array" [([TName x], PName x); ([TName "mx"; Dot; TName t], lfn MLX t)]). constructor; [apply X|constructor; [apply (Y MLX)|constructor]].
  - apply (opened_lib_kwe TF "convert_to_tensor" "dtype" [TName x] _ [TName "tf"; Dot; TName t] _ (X x) (Y TF)).
  - apply (opened_lib_kwe TORCH "tensor" "dtype" [TName x] _ [TName "torch"; Dot; TName t] _ (X x) (Y TORCH)).
Qed.
Lemma stored_value W lo hi t dv : (forall z, (lo <= z <= hi)%Z -> W z = z) -> converted t = true -> arg_ok lo hi t dv ->
  exists l, as_lists dv = NSeq l /\ stored W l = Some (NA (arr_of dv)).
Proof.
  intros Wok C A.
  assert (Q : forall E, E "x" = Some (as_lists dv) -> npvalue W E (PCall (PAttr (PCall (np_fn "array") [PName "x"]) "astype") [np_fn "int32"]) = Some (NA (arr_of dv))).
  { intros E V. exact (conv_value W lo hi E "x" INT32 t dv Wok C A V). }
  specialize (Q (fun _ => Some (as_lists dv)) eq_refl).
  destruct t as [| |[]|[]| | | |]; try discriminate C; destruct dv; try contradiction A; eexists; (split; [reflexivity|]); unfold stored;
    cbn [npvalue np_fn mapO option_map as_lists] in Q; cbn in Q;
    match type of Q with context[narray ?l] => destruct (narray l) as [v|] eqn:N; [|cbn in Q; try discriminate Q] end;
    cbn in Q; try rewrite N; exact Q.
Qed.
Lemma lconv_value L W fl lo hi E x d m t dv : (forall z, (lo <= z <= hi)%Z -> W z = z) -> converted t = true -> arg_ok lo hi t dv ->
  E x = Some (as_lists dv) -> lvalue L W fl E (lconv_exp L x (type_name L d m)) = Some (NA (arr_of dv)).
Proof.
  intros Wok C A V. destruct (stored_value W lo hi t dv Wok C A) as [l [El Sl]]. rewrite El in V.
  assert (Ty : forall L', exists u, (if smem (type_name L' d m) ["uint8"; "int32"; "float32"] then Some (NType (type_name L' d m)) else None) = Some (NType u)) by (intros []; destruct m, d; eexists; reflexivity).
  destruct L; unfold lconv_exp, lfn; cbn [lvalue mapO option_map is_module]; rewrite V; cbn [option_map].
  - change (String.eqb (module MLX) (module MLX)) with true. cbv iota. destruct (Ty MLX) as [u ->]. cbn [option_map]. exact Sl.
  - change (String.eqb (module TF) (module TF)) with true. cbv iota. destruct (Ty TF) as [u ->]. cbn [option_map]. exact Sl.
  - change (String.eqb (module TORCH) (module TORCH)) with true. cbv iota. destruct (Ty TORCH) as [u ->]. cbn [option_map]. exact Sl.
Qed.
Definition line_text (L : lib) (x t : string) : string :=
  (x ++ match L with
        | MLX => " = mx.array(" ++ x ++ ", mx." ++ t ++ ")"
        | TF => " = tf.convert_to_tensor(" ++ x ++ ", dtype=tf." ++ t ++ ")"
        | TORCH => " = torch.tensor(" ++ x ++ ", dtype=torch." ++ t ++ ")"
        end)%string.
Lemma lconv_lex L x d m : py_name x = true -> lexes (line_text L x (type_name L d m)) (TName x :: Assign :: lconv_tokens L x (type_name L d m)).
Proof.
  intros Nx. unfold line_text. set (t := type_name L d m). assert (Nt : t = "float32" \/ t = "int32" \/ t = "uint8") by (unfold t; destruct L, m, d; auto).
  destruct L.
  - change (TName x :: Assign :: lconv_tokens MLX x t) with ([TName x] ++ [Assign; TName "mx"; Dot; TName "array"; LP] ++ [TName x] ++ skipn 5 (lconv_tokens MLX x t)).
    apply lexes_cat; [apply word_name, Nx| |reflexivity|discriminate]. apply lexes_str; [intros [|? ?]; reflexivity|].
    apply lexes_cat; [apply word_name, Nx| |reflexivity|discriminate]. intros rest _. destruct Nt as [->|[->| ->]]; destruct rest; reflexivity.
  - change (TName x :: Assign :: lconv_tokens TF x t) with ([TName x] ++ [Assign; TName "tf"; Dot; TName "convert_to_tensor"; LP] ++ [TName x] ++ skipn 5 (lconv_tokens TF x t)).
    apply lexes_cat; [apply word_name, Nx| |reflexivity|discriminate]. apply lexes_str; [intros [|? ?]; reflexivity|].
    apply lexes_cat; [apply word_name, Nx| |reflexivity|discriminate]. intros rest _. destruct Nt as [->|[->| ->]]; destruct rest; reflexivity.
  - change (TName x :: Assign :: lconv_tokens TORCH x t) with ([TName x] ++ [Assign; TName "torch"; Dot; TName "tensor"; LP] ++ [TName x] ++ skipn 5 (lconv_tokens TORCH x t)).
    apply lexes_cat; [apply word_name, Nx| |reflexivity|discriminate]. apply lexes_str; [intros [|? ?]; reflexivity|].
    apply lexes_cat; [apply word_name, Nx| |reflexivity|discriminate]. intros rest _. destruct Nt as [->|[->| ->]]; destruct rest; reflexivity.
Qed.
Lemma lconv_run L W fl lo hi d m ps ds E : (forall z, (lo <= z <= hi)%Z -> W z = z) -> NoDup (map fst ps) ->
  Forall2 (fun p dv => arg_ok lo hi (snd p) dv) ps ds ->
  Forall2 (fun p dv => E (fst p) = Some (as_lists dv)) ps ds ->
  exists E', lassign L W fl E (map (fun p => (fst p, lconv_exp L (fst p) (type_name L d m))) (filter (fun p => converted (snd p)) ps)) = Some E' /\
    Forall2 (fun p dv => E' (fst p) = Some (NA (arr_of dv))) ps ds /\ forall y, ~ In y (map fst ps) -> E' y = E y.
Proof.
  intros Wok. revert ds E. induction ps as [|[x t] ps IH]; intros ds E ND A V; inversion A as [|? dv ? ds' A1 A2]; subst; inversion V as [|? ? ? ? V1 V2]; subst.
  - exists E. repeat split; auto.
  - inversion ND as [|? ? N1 N2]; subst. cbn [fst snd filter map] in *.
    assert (K : forall E1, (forall y, y <> x -> E1 y = E y) -> Forall2 (fun p dv => E1 (fst p) = Some (as_lists dv)) ps ds').
    { intros E1 H. clear - V2 H N1. assert (H' : forall y, In y (map fst ps) -> E1 y = E y) by (intros y Hy; apply H; intros ->; contradiction).
      clear N1 H. induction V2 as [|p dv ps ds' V V2 IH]; constructor.
      - rewrite H'; [exact V|left; reflexivity].
      - apply IH. intros y Hy. apply H'. right. exact Hy. }
    destruct (converted t) eqn:C.
    + cbn [map lassign fst snd]. rewrite (lconv_value L W fl lo hi E x d m t dv Wok C A1 V1). set (E1 := fun y => if String.eqb y x then Some (NA (arr_of dv)) else E y).
      assert (H1 : forall y, y <> x -> E1 y = E y) by (intros y H; unfold E1; rewrite (proj2 (String.eqb_neq y x) H); reflexivity).
      destruct (IH ds' E1 N2 A2 (K E1 H1)) as [E' [R [F O]]]. exists E'. split; [exact R|]. split.
      * constructor; [|exact F]. cbn [fst]. rewrite (O x N1). unfold E1. rewrite String.eqb_refl. reflexivity.
      * intros y Hy. rewrite O by (intros H; apply Hy; right; exact H). apply H1. intros ->. apply Hy. left. reflexivity.
    + destruct (IH ds' E N2 A2 (K E ltac:(reflexivity))) as [E' [R [F O]]]. exists E'. split; [exact R|]. split.
      * constructor; [|exact F]. cbn [fst]. rewrite (O x N1), V1. destruct t as [| |[]|[]| | | |]; try discriminate C; destruct dv; try contradiction A1; reflexivity.
      * intros y Hy. apply O. intros H. apply Hy. right. exact H.
Qed.

(** The text of the program is, token by token: a function with the parameters of the
    lifted function and one [return] statement; and a function with the same parameters
    that turns the vectors and matrices into arrays, of the given type of elements or (not in
    TensorFlow) of type float32, and calls the first one.  Called with
    lists, it returns the value of the lifted function.  Missing: as above, and parameters
    of other types. *)
Theorem C56_program_partial L W lo hi fns d k f T body t l params :
  let xs := map fst params in
  let decl := Node k T (Atom (PStr f) :: body :: map (fun x => mkVar (fst x) (snd x)) params) in
  let f1 := (cut3 f ++ "_" ++ module L)%string in let f2 := (cut3 f ++ "_" ++ module L ++ "_glued")%string in
  k = KFnDeclRec \/ k = KFnDecl \/ k = KTarget ->
  py_name f1 = true -> py_name f2 = true -> NoDup xs -> Forall (fun x => py_name x = true /\ x <> module L) xs ->
  (forall z, (lo <= z <= hi)%Z -> W z = z) -> is_float d = false -> select_ok L fns -> shown fns body t l -> portable L d body = true ->
  exists N s1 s2 ts p lines,
    (forall n, N <= n -> l_program L fns d n decl = Ok (s1, s2)) /\
    layout s1 (signature f1 xs) [KwReturn :: ts] /\ (exists n, parse n GCond ts = Some (p, [])) /\
    layout s2 (signature f2 xs) (map (fun x => TName (fst x) :: Assign :: fst (snd x)) lines ++
                                 [[KwReturn; TName f1; LP] ++ tjoin Comma (map (fun x => [TName x]) xs) ++ [RP]]) /\
    Forall (fun x => (exists n, parse n GCond (fst (snd x)) = Some (snd (snd x), [])) /\
                     (element_type (snd (snd x)) = Some (element d) \/ L <> TF /\ element_type (snd (snd x)) = Some "float32")) lines /\
    forall I ds dv, tensor_like fns I -> Forall2 (fun x d => arg_ok lo hi (snd x) d) params ds ->
      let r := frame fns xs (map emb ds) in
      fits lo hi I (select_fits fns lo hi I) r body -> proper dv -> eval I r body = Some (emb dv) ->
      lcall_glued L W xs (map (fun x => (fst x, snd (snd x))) lines) p (map as_lists ds) = Some (NA (arr_of dv)).
Proof.
  intros xs decl f1 f2 K N1 N2 ND Nx Wok Dint Sel Sh Po. destruct (shown_lright L W lo hi fns d Wok Dint Sel body t l Sh Po) as [p [m [_ [T0 M]]]].
  destruct (T0 [] (fresh_nil body)) as [N [s [ts [H [X R]]]]].
  assert (Nx' : Forall (fun x => py_name x = true) xs) by (eapply Forall_impl; [|exact Nx]; cbn; tauto).
  assert (Nm : mapR name_of (map (fun x => mkVar (fst x) (snd x)) params) = Ok xs).
  { unfold xs. clear. induction params as [|[x u] ps IH]; [reflexivity|]. cbn [map mapR]. rewrite IH. reflexivity. }
  set (conv := filter (fun p => converted (snd p)) params).
  set (tn := type_name L d m). set (line := fun x => line_text L x tn).
  assert (Cv : exists cs, mapR (fun p => x <- name_of p ;; u <- type_of p ;; Ok (l_conversion L d m x u)) (map (fun x => mkVar (fst x) (snd x)) params) = Ok cs /\ concat cs = map (fun x => line (fst x)) conv).
  { unfold conv, line, tn. clear. induction params as [|[x u] ps IH]; [exists []; split; reflexivity|]. destruct IH as [cs [E C]]. exists (l_conversion L d m x u :: cs). cbn [map mapR fst snd]. rewrite E. split; [reflexivity|].
    cbn [concat filter snd]. rewrite C.
    assert (Q : l_conversion L d m x (TList TInt) = [line_text L x (type_name L d m)]).
    { unfold l_conversion, line_text, l_dtype, type_name. destruct L; cbn [module]; do 2 f_equal; strs. }
    destruct u as [| |[]|[]| | | |]; try reflexivity; cbn [converted map fst]; change (l_conversion L d m x (TMatrix TInt)) with (l_conversion L d m x (TList TInt)); rewrite Q; reflexivity. }
  destruct Cv as [cs [Ec Cc]].
  set (lines := map (fun x : string * ty => (fst x, (lconv_tokens L (fst x) tn, lconv_exp L (fst x) tn))) conv).
  exists N, (newline ++ "def " ++ f1 ++ space L ++ "(" ++ join ", " xs ++ "):" ++ newline ++ "    return " ++ s ++ newline)%string,
    (newline ++ "def " ++ f2 ++ space L ++ "(" ++ join ", " xs ++ "):" ++ newline ++
     glue_lines (map (fun x => line (fst x)) conv) ++ newline ++ "    return " ++ f1 ++ "(" ++ join ", " xs ++ ")" ++ newline)%string,
    ts, p, lines.
  assert (Sp : space L = "" \/ space L = " ") by (destruct L; auto).
  split; [|split; [|split; [|split; [|split]]]].
  - intros n Ln. unfold l_program.
    assert (Q : l_kernel L fns d n decl = (xs <- mapR name_of (map (fun x => mkVar (fst x) (snd x)) params) ;; s <- lhelper L fns d n body [] ;;
        Ok (newline ++ "def " ++ (cut3 f ++ "_" ++ module L) ++ space L ++ "(" ++ join ", " xs ++ "):" ++ newline ++ "    return " ++ fst (fst s) ++ newline, snd s)%string)) by (destruct K as [->|[->| ->]]; reflexivity).
    rewrite Q, Nm. cbn [bindR]. rewrite (H n Ln). cbn [bindR fst snd].
    assert (Q' : l_glued L d m decl = (xs <- mapR name_of (map (fun x => mkVar (fst x) (snd x)) params) ;;
        convs <- mapR (fun p => x <- name_of p ;; t <- type_of p ;; Ok (l_conversion L d m x t)) (map (fun x => mkVar (fst x) (snd x)) params) ;;
        let lines := concat convs in
        Ok (newline ++ "def " ++ (cut3 f ++ "_" ++ module L ++ "_glued") ++ space L ++ "(" ++ join ", " xs ++ "):" ++ newline ++
            (match lines with [] => "" | _ => "    " ++ join (newline ++ "    ") lines end) ++ newline ++
            "    return " ++ (cut3 f ++ "_" ++ module L) ++ "(" ++ join ", " xs ++ ")" ++ newline)%string)) by (destruct K as [->|[->| ->]]; reflexivity).
    rewrite Q', Nm. cbn [bindR]. rewrite Ec. cbn [bindR]. rewrite Cc. unfold f1, f2, glue_lines. destruct (map (fun x => line (fst x)) conv); reflexivity.
  - apply (layout_one (space L) f1 xs ("return " ++ s) (KwReturn :: ts)); try assumption; [|reflexivity].
    apply lexes_all. change (KwReturn :: ts) with ([KwReturn] ++ ts). apply lexes_str; [intros [|? ?]; reflexivity|exact X].
  - pose proof (reads_at 0 l _ _ R (Nat.le_0_l _) [] Logic.I) as Y. rewrite app_nil_r in Y. exact Y.
  - match goal with |- layout ?a _ _ => replace a with (newline ++ "def " ++ f2 ++ space L ++ "(" ++ join ", " xs ++ "):" ++ newline ++
      glue_lines (map (fun x => line (fst x)) conv) ++ newline ++ "    " ++ ("return " ++ f1 ++ "(" ++ join ", " xs ++ ")") ++ newline)%string by strs end.
    apply (layout_all (space L) f2 xs (map (fun x => line (fst x)) conv) _ ("return " ++ f1 ++ "(" ++ join ", " xs ++ ")")); try assumption; [| |reflexivity].
    + unfold lines. rewrite map_map. cbn [fst snd]. assert (I0 : forall x, In x conv -> py_name (fst x) = true).
      { intros x Hx. unfold conv in Hx. apply filter_In in Hx. destruct Hx as [Hx _]. rewrite Forall_forall in Nx'. apply Nx', in_map, Hx. }
      clear - I0. induction conv as [|x c IH]; constructor; [|apply IH; intros; apply I0; right; assumption].
      split; [apply lexes_all, lconv_lex, I0; left; reflexivity|apply name_first, I0; left; reflexivity].
    + apply lexes_all. change ([KwReturn; TName f1; LP] ++ ?a) with ([KwReturn] ++ [TName f1] ++ [LP] ++ a).
      apply lexes_str; [intros [|? ?]; reflexivity|]. apply lexes_cat; [apply word_name, N1| |reflexivity|discriminate].
      apply lexes_str; [intros [|? ?]; reflexivity|]. apply lexes_cat; [apply (lexes_join ", "); [apply sep_comma|apply names_lex, Nx']|intros [|? ?] _; reflexivity|reflexivity|discriminate].
  - unfold lines. rewrite Forall_map. apply Forall_forall. intros x _. cbn [fst snd].
    pose proof (reads_at 0 8 _ _ (reads8 _ (lconv_exp L (fst x) tn) ltac:(destruct L; reflexivity) (lconv_open L (fst x) tn)) (Nat.le_0_l _) [] Logic.I) as Y. rewrite app_nil_r in Y. split; [exact Y|].
    unfold tn, type_name. destruct L, m, d; auto; right; (split; [discriminate|reflexivity]).
  - intros I ds dv TL A r F P V. unfold lcall_glued, lines. rewrite map_map. cbn [fst snd].
    set (fl := all_float32 (map (fun x : string * ty => (fst x, lconv_exp L (fst x) tn)) conv)).
    assert (Fl : m = true -> L = MLX -> fl = true).
    { intros Em El. unfold fl, tn, type_name. rewrite Em, El. clear. induction conv as [|x c IH]; [reflexivity|]. exact IH. }
    assert (V0 : Forall2 (fun (p : string * ty) dv => named xs (map as_lists ds) (fst p) = Some (as_lists dv)) params ds).
    { unfold xs. clear - A ND. unfold xs in ND. induction A as [|[x u] dv ps ds A1 A IH]; [constructor|]. cbn [map fst] in *. inversion ND as [|? ? Q1 Q2]; subst. constructor.
      - cbn [fst named]. rewrite String.eqb_refl. reflexivity.
      - specialize (IH Q2). clear A1 A Q2 ND. cbn [named].
        assert (G : forall p dv0, In p ps -> named (map fst ps) (map as_lists ds) (fst p) = Some (as_lists dv0) -> (if String.eqb (fst p) x then Some (as_lists dv) else named (map fst ps) (map as_lists ds) (fst p)) = Some (as_lists dv0)).
        { intros p dv0 Hp Hn. destruct (String.eqb_spec (fst p) x) as [<-|_]; [|exact Hn]. exfalso. apply Q1, in_map, Hp. }
        revert G IH. generalize (named (map fst ps) (map as_lists ds)). generalize ds. clear Q1. induction ps as [|p ps IHp]; intros ds0 h G IH; inversion IH; subst; constructor.
        + apply G; [left; reflexivity|assumption].
        + apply IHp; [intros; apply G; [right|]; assumption|assumption]. }
    destruct (lconv_run L W fl lo hi d m params ds _ Wok ND A V0) as [E' [Q [F2 _]]]. fold tn in Q. fold conv in Q. rewrite Q.
    assert (Mp : mapO E' xs = Some (map (fun dv => NA (arr_of dv)) ds)).
    { unfold xs. clear - F2. induction F2 as [|p dv ps ds H F2 IH]; [reflexivity|]. cbn [map mapO]. rewrite H, IH. reflexivity. }
    rewrite Mp. apply (M I r _ fl Fl TL); try assumption.
    intros x d0 P0 Hx. unfold r, frame in Hx. rewrite named_in in Hx. rewrite named_in. destruct (named xs ds x) as [d1|] eqn:En; [|cbn [option_map] in Hx; destruct (smem x (map fst fns)); [|discriminate Hx]; destruct d0; discriminate Hx]. cbn [option_map] in Hx |- *. injection Hx as Hx.
    assert (P1 : proper d1).
    { clear - A En. unfold xs in En. induction A as [|[y u] dv ps ds A1 A IH]; [discriminate En|]. cbn [map fst named] in En. destruct (String.eqb x y); [|apply IH, En]. injection En as <-. apply (arg_proper lo hi u), A1. }
    rewrite (emb_inj d1 d0 P1 P0 Hx). reflexivity.
Qed.
Print Assumptions C56_program_partial.

(** ** cases *)

(** the conditions on the library hold for the case of C45 *)
Lemma case_portable L : portable L UINT_8 case_body = true /\ select_ok L case_fns.
Proof.
  split; [destruct L; reflexivity|]. intros _ h p q c a b Ch. vm_compute in Ch. injection Ch as <- <- <- <- <- <-. reflexivity.
Qed.
Definition run_text (L : lib) (W : Z -> Z) (xs : list string) (lines : list (string * string)) (body : string) (args : list nval) : option nval :=
  match parse 60 GCond (lex "" body), mapO (fun x => match parse 60 GCond (lex "" (snd x)) with Some (p, []) => Some (fst x, p) | _ => None end) lines with
  | Some (p, []), Some ls => lcall_glued L W xs ls p args
  | _, _ => None
  end.
(** the hypotheses are met, and the three programs compute [[13; 15]; [17; 19]] *)
Example C56_case :
  tensor_like case_fns demo_smt /\ shown case_fns case_body (TMatrix TInt) 5 /\
  (forall L, portable L UINT_8 case_body = true /\ select_ok L case_fns) /\
  Forall2 (fun x d => arg_ok 0 255 (snd x) d) case_params case_args /\
  fits 0 255 demo_smt (select_fits case_fns 0 255 demo_smt) (frame case_fns (map fst case_params) (map emb case_args)) case_body /\
  l_program MLX case_fns UINT_8 20 case_fn =
    Ok (newline ++ "def lighten_mx (base, active, k):" ++ newline ++
        "    return (k) + (mx.where(mx.greater(base, active), base, active))" ++ newline,
        newline ++ "def lighten_mx_glued (base, active, k):" ++ newline ++
        "    base = mx.array(base, mx.uint8)" ++ newline ++ "    active = mx.array(active, mx.uint8)" ++ newline ++
        "    return lighten_mx(base, active, k)" ++ newline)%string /\
  l_program TF case_fns UINT_8 20 case_fn =
    Ok (newline ++ "def lighten_tf(base, active, k):" ++ newline ++
        "    return (k) + (tf.where(tf.greater(base, active), base, active))" ++ newline,
        newline ++ "def lighten_tf_glued(base, active, k):" ++ newline ++
        "    base = tf.convert_to_tensor(base, dtype=tf.uint8)" ++ newline ++ "    active = tf.convert_to_tensor(active, dtype=tf.uint8)" ++ newline ++
        "    return lighten_tf(base, active, k)" ++ newline)%string /\
  l_program TORCH case_fns UINT_8 20 case_fn =
    Ok (newline ++ "def lighten_torch (base, active, k):" ++ newline ++
        "    return (k) + (torch.where(torch.greater(base, active), base, active))" ++ newline,
        newline ++ "def lighten_torch_glued (base, active, k):" ++ newline ++
        "    base = torch.tensor(base, dtype=torch.uint8)" ++ newline ++ "    active = torch.tensor(active, dtype=torch.uint8)" ++ newline ++
        "    return lighten_torch(base, active, k)" ++ newline)%string /\
  run_text TF byte ["base"; "active"; "k"]
    [("base", "tf.convert_to_tensor(base, dtype=tf.uint8)"); ("active", "tf.convert_to_tensor(active, dtype=tf.uint8)")]
    "(k) + (tf.where(tf.greater(base, active), base, active))" (map as_lists case_args) = Some (NA (arr_of (DM [[13; 15]; [17; 19]]%Z))).
Proof.
  split; [apply case_tensor|]. split; [apply case_shown|]. split; [intros L; apply case_portable|]. split; [repeat constructor; cbn; lia|]. split; [apply case_fits|].
  split; [reflexivity|]. split; [reflexivity|]. split; [reflexivity|]. vm_compute. reflexivity.
Qed.

(** a product of a matrix and a vector: MLX and PyTorch store the elements as float32 *)
Definition mul_body : expr := call "matrix_vec_mul" li1 [var "m" mi; var "v" li1].
Definition mul_params : list (string * ty) := [("m", mi); ("v", li1)].
Definition mul_fn : expr :=
  Node KFnDeclRec (TFn [li1; mi; li1]) (Atom (PStr "gemv_ps") :: mul_body :: map (fun x => mkVar (fst x) (snd x)) mul_params).
Definition mul_args : list dval := [DM [[1; 5]; [7; 2]]; DL [3; 4]]%Z.
Example C56_case_product :
  shown [] mul_body li1 8 /\ (forall L, portable L INT32 mul_body = true /\ select_ok L []) /\
  Forall2 (fun x d => arg_ok 0 1000 (snd x) d) mul_params mul_args /\
  fits 0 1000 demo_smt (select_fits [] 0 1000 demo_smt) (frame [] (map fst mul_params) (map emb mul_args)) mul_body /\
  eval demo_smt (frame [] (map fst mul_params) (map emb mul_args)) mul_body = Some (vl [23; 29]%Z) /\
  l_program MLX [] INT32 20 mul_fn =
    Ok (newline ++ "def gemv_mx (m, v):" ++ newline ++ "    return mx.matmul(m, v)" ++ newline,
        newline ++ "def gemv_mx_glued (m, v):" ++ newline ++ "    m = mx.array(m, mx.float32)" ++ newline ++ "    v = mx.array(v, mx.float32)" ++ newline ++
        "    return gemv_mx(m, v)" ++ newline)%string /\
  run_text MLX id ["m"; "v"] [("m", "mx.array(m, mx.float32)"); ("v", "mx.array(v, mx.float32)")] "mx.matmul(m, v)" (map as_lists mul_args) = Some (NA (arr_of (DL [23; 29]%Z))) /\
  run_text MLX id ["m"; "v"] [("m", "mx.array(m, mx.int32)"); ("v", "mx.array(v, mx.int32)")] "mx.matmul(m, v)" (map as_lists mul_args) = None /\
  run_text TF id ["m"; "v"] [("m", "tf.convert_to_tensor(m, dtype=tf.int32)"); ("v", "tf.convert_to_tensor(v, dtype=tf.int32)")] "tf.linalg.matvec(m, v)" (map as_lists mul_args) =
    Some (NA (arr_of (DL [23; 29]%Z))).
Proof.
  split; [eapply s_np2; [reflexivity|apply s_var; [reflexivity|discriminate]..]|].
  split; [intros L; split; [destruct L; reflexivity|intros _ ? ? ? ? ? ? Ch; discriminate Ch]|].
  split; [repeat constructor; cbn; lia|]. split; [|repeat split; vm_compute; reflexivity].
  split; [value (DL [23; 29]%Z)|]. split; [split; [|split; [|exact Logic.I]]|].
  - split; [value (DM [[1; 5]; [7; 2]]%Z)|exact Logic.I].
  - split; [value (DL [3; 4]%Z)|exact Logic.I].
  - exists mul_args, (DL [23; 29]%Z). repeat split; repeat constructor.
Qed.

(** ** where the text is wrong *)

(** lifted value, generated text, and value of the text *)
Definition ltext_value (L : lib) (W : Z -> Z) (E : string -> option nval) (s : string) : option nval :=
  match parse 100 GCond (lex "" s) with Some (p, []) => lvalue L W false E p | _ => None end.
Definition loutcome (L : lib) (fns : list (string * expr)) (xs : list string) (ds : list dval) (e : expr) : option val * res string * option nval :=
  let s := x <- lhelper L fns UINT_8 50 e [] ;; Ok (fst (fst x)) in
  (eval demo_smt (frame fns xs (map emb ds)) e, s,
   match s with Ok s => ltext_value L byte (named xs (map (fun d => NA (arr_of d)) ds)) s | Err _ => None end).

(** The number of rows of a matrix: MLX and TensorFlow count the elements, PyTorch the
    rows.  [list_tail] keeps the first elements.  [list_prepend]: the generator for PyTorch
    raises an exception (a method of tensors is called on a text); the others exchange the
    arguments.  [matrix_prepend] is known to the generator for TensorFlow only. *)
Theorem C56_functions_refuted :
  let m := call "matrix_length" TInt [var "m" mi] in let dm := [DM [[1; 2]; [3; 4]]]%Z in
  let p := call "list_prepend" li1 [lit 1; var "a" li1] in let q := call "matrix_prepend" mi [var "a" li1; var "m" mi] in
  loutcome MLX [] ["m"] dm m = (Some (VInt 2), Ok "m.size", int 4) /\
  loutcome TF [] ["m"] dm m = (Some (VInt 2), Ok "tf.size(m)", int 4) /\
  loutcome TORCH [] ["m"] dm m = (Some (VInt 2), Ok "m.size(dim=0)", int 2) /\
  (forall L, loutcome L [] ["a"] [DL [1; 2; 3]]%Z (call "list_tail" li1 [var "a" li1; lit 1]) = (Some (vl [2; 3]%Z), Ok "a[:1]", ints [1]%Z)) /\
  loutcome TORCH [] ["a"] [DL [2; 3]]%Z p = (Some (vl [1; 2; 3]%Z), Err ExAttr, None) /\
  loutcome MLX [] ["a"] [DL [2; 3]]%Z p = (Some (vl [1; 2; 3]%Z), Ok "mx.concatenate([mx.expand_dims(a, axis=0), 1], axis=0)", None) /\
  loutcome TF [] ["a"] [DL [2; 3]]%Z p = (Some (vl [1; 2; 3]%Z), Ok "tf.concat([tf.expand_dims(a, 0), 1], axis=0)", None) /\
  loutcome TF [] ["a"; "m"] [DL [1; 2]; DM [[3; 4]]]%Z q = (Some (vm [[1; 2]; [3; 4]]%Z), Ok "tf.concat([tf.expand_dims(m, 0), a], axis=0)", None) /\
  loutcome MLX [] ["a"; "m"] [DL [1; 2]; DM [[3; 4]]]%Z q = (Some (vm [[1; 2]; [3; 4]]%Z), Err ExNYI, None).
Proof. cbv zeta. repeat split; try (intros []); vm_compute; reflexivity. Qed.
Print Assumptions C56_functions_refuted.

(** [list_append] of a number: PyTorch calls a method of tensors on it, MLX a function that
    takes arrays; an operator in the second argument of [matrix_append] is not
    put in parentheses by the generator for PyTorch; [list_concat]: MLX and TensorFlow get
    the keyword of PyTorch. *)
Theorem C56_appending_refuted :
  let a := call "list_append" li1 [var "a" li1; var "k" TInt] in let c := call "list_concat" li1 [var "a" li1; var "b" li1] in
  let s := call "matrix_append" mi [var "m" mi; call "vec_elemwise_add" li1 [var "a" li1; var "b" li1]] in
  loutcome TORCH [] ["a"; "k"] [DL [1]; DZ 2]%Z a = (Some (vl [1; 2]%Z), Ok "torch.cat([a, k.unsqueeze(0)], dim=0)", None) /\
  loutcome MLX [] ["a"; "k"] [DL [1]; DZ 2]%Z a = (Some (vl [1; 2]%Z), Ok "mx.concatenate([a, mx.expand_dims(k, axis=0)], axis=0)", None) /\
  loutcome TF [] ["a"; "k"] [DL [1]; DZ 2]%Z a = (Some (vl [1; 2]%Z), Ok "tf.concat([a, tf.expand_dims(k, 0)], axis=0)", ints [1; 2]%Z) /\
  fst (loutcome TORCH [] ["m"; "a"; "b"] [DM [[1]]; DL [2]; DL [3]]%Z s) = (Some (vm [[1]; [5]]%Z), Ok "torch.cat([m, (a) + (b).unsqueeze(0)], dim=0)") /\
  written "(a) + (b).unsqueeze(0)" (PBin OAdd (PName "a") (PCall (PAttr (PName "b") "unsqueeze") [PNum 0])) /\
  loutcome TORCH [] ["a"; "b"] [DL [1]; DL [2]]%Z c = (Some (vl [1; 2]%Z), Ok "torch.cat([a, b], dim=0)", ints [1; 2]%Z) /\
  loutcome MLX [] ["a"; "b"] [DL [1]; DL [2]]%Z c = (Some (vl [1; 2]%Z), Ok "mx.concatenate([a, b], dim=0)", None) /\
  loutcome TF [] ["a"; "b"] [DL [1]; DL [2]]%Z c = (Some (vl [1; 2]%Z), Ok "tf.concat([a, b], dim=0)", None).
Proof. cbv zeta. do 4 (split; [vm_compute; reflexivity|]). split; [exists 40; vm_compute; reflexivity|]. repeat split; vm_compute; reflexivity. Qed.
Print Assumptions C56_appending_refuted.

(** A comparison with a number in front, in a selection: PyTorch takes no number there; MLX
    does. *)
Definition sel3_fn : expr := Node KFnDecl (TFn [TInt; TInt; TInt])
  [Atom (PStr "select_two_args"); Node KIte TInt [Node KEq TBool [lit 0; var "int_x" TInt]; var "int_y" TInt; var "int_x" TInt];
   var "int_x" TInt; var "int_y" TInt].
Theorem C56_comparison_refuted :
  let fns := [("select_two_args", sel3_fn)] in
  let E := named ["a"; "b"] (map (fun d => NA (arr_of d)) [DM [[1; 0]]; DM [[3; 4]]]%Z) in
  let txt L := x <- lhelper L fns UINT_8 50 (selection "a" "b" "select_two_args") [] ;; Ok (fst (fst x)) in
  txt MLX = Ok "mx.where(mx.equal(0, a), b, a)" /\
  ltext_value MLX byte E "mx.where(mx.equal(0, a), b, a)" = Some (NA (AM [[EI 1; EI 4]])) /\
  txt TORCH = Ok "torch.where(torch.eq(0, a), b, a)" /\
  ltext_value TORCH byte E "torch.where(torch.eq(0, a), b, a)" = None /\ ~ select_ok TORCH fns.
Proof.
  cbv zeta. do 4 (split; [vm_compute; reflexivity|]). intros H. specialize (H eq_refl "select_two_args" "int_x" "int_y" _ _ _ eq_refl). discriminate H.
Qed.
Print Assumptions C56_comparison_refuted.

(** Unlike the generator for NumPy, these three do not know [Choose]. *)
Theorem C56_choose_refuted :
  let e := Node KChoose TInt [lit 2] in
  (x <- helper [] UINT_8 50 e [] ;; Ok (fst x)) = Ok "2" /\ forall L n, exists r, lhelper L [] UINT_8 n e [] = Err r.
Proof. split; [vm_compute; reflexivity|]. intros L [|[|[|n]]]; eexists; reflexivity. Qed.
Print Assumptions C56_choose_refuted.
