(** C51, continued: the text of a kernel for Gaudi. *)

From Coq Require Import String Ascii List ZArith Bool Lia.
From Verif Require Import Ast Dict Semantics SmtPrint UtilProofs SmtText PyGram PyParse PyMean NpModel NpProofs3 GdModel GdSem GdProofs1 GdProofs2 GdProofs3 GdProofs9 GdText Properties_Gd.
Import ListNotations.
Local Open Scope nat_scope.
Local Open Scope string_scope.
Local Open Scope list_scope.

(** ** its text *)

(** the tokens of the header [void main(type x, ...) {] *)
Definition c_header (t : ht) : string := match t with TENSOR => "tensor" | HUINT8 => "uint8_t" | HFLOAT => "float" | HINT32 => "int32_t" end.
Definition header_tokens (params : list (string * ht)) : list tok :=
  [TName "void"; TName "main"; LP] ++ tjoin Comma (map (fun p => [TName (c_header (snd p)); TName (fst p)]) params) ++ [RP; TOther].
(** the line that stores the result; the last token is the semicolon *)
Definition stores (k : kernel) (s : string) : Prop :=
  lex "" s = [TName (k_store k); LP; TName "outputCoord"; Comma; TName (k_rv k); Comma; TName (k_result k); RP; TOther].

(** Each instruction that is run (GdSem.v) has a line, in the same order, and the line is the
    statement (GdText.v) for this very instruction: the type, the variable and the expression
    are the ones that are run.  The line before them sets the coordinates, the one after them
    stores the result (for a reduction: after the end of the loop); the header lists the
    parameters.  The names have to be names and the literals numbers. *)
Theorem C51_text fns d n ps k body : gaudi_kernel fns d n ps = Ok k -> decl_body ps = Ok body -> plain body = true ->
  (forall sel b, select_fn fns = Ok sel -> decl_body sel = Ok b -> plain b = true) -> forallb py_name (map fst (k_params k)) = true ->
  exists head pre ls post store, kernel_text k = Ok (head :: pre ++ ls ++ post) /\ Forall2 statement ls (k_body k) /\ ls <> [] /\
    lex "" head = header_tokens (k_params k) /\ stores k store /\
    match k_shape k with
    | OneDim => pre = ["int5 index_space_start = get_index_space_offset();"; "int5 index_space_end = index_space_start + get_index_space_size();";
                       "int5 inputCoord = { 0 };"; "int5 outputCoord = { 0 };"; "unsigned vec_len = " ++ string_of_nat (match d with UINT_8 => 256 | INT32 | FLOAT => 64 end) ++ ";";
                       "#pragma loop_unroll(8)"; "for(int i = index_space_start[0]; i < index_space_end[0]; i++) {"; "inputCoord[0] = outputCoord[0] = (i * vec_len);"]%string /\
                post = [store; "}"; "}"]
    | TwoDim => pre = ["int5 index_space_start = get_index_space_offset();"; "int5 index_space_end = index_space_start + get_index_space_size();";
                       "int5 inputCoord = { 0 };"; "int5 outputCoord = { 0 };"; "unsigned vec_len = " ++ string_of_nat (match d with UINT_8 => 256 | INT32 | FLOAT => 64 end) ++ ";";
                       "for(int i = index_space_start[0]; i < index_space_end[0]; i++) {"; "#pragma loop_unroll(4)";
                       "for (int j = index_space_start[1]; j < index_space_end[1]; j++) {"; "inputCoord[0] = outputCoord[0] = (i * vec_len);"; "inputCoord[1] = outputCoord[1] = j;"]%string /\
                post = [store; "}"; "}"; "}"]
    | Reduction => pre = ["int5 index_space_start = get_index_space_offset();"; "int5 index_space_end = index_space_start + get_index_space_size();";
                       "int5 inputCoord = { 0 };"; "int5 outputCoord = { 0 };"; "int64 " ++ k_result k ++ ";"; "unsigned vec_len = " ++ string_of_nat (match d with UINT_8 => 256 | INT32 | FLOAT => 64 end) ++ ";";
                       "#pragma loop_unroll(8)"; "for(int i = index_space_start[0]; i < index_space_end[0]; i++) {"; "inputCoord[0] = outputCoord[0] = (i * vec_len);"]%string /\
                post = ["}"; "outputCoord[0] = index_space_start[0] * vec_len;"; store; "}"]
    end.
Proof.
  intros K B P Ps N. destruct (kernel_inv _ _ _ _ _ K) as (t & f & body' & params & ret & hs & hr & ov & s' & loc & i & x & _ & B' & _ & _ & _ & _ & G & X & Ek). rewrite B in B'. injection B' as <-.
  assert (Vl : k_vec_len k = match d with UINT_8 => 256 | INT32 | FLOAT => 64 end) by (rewrite Ek; destruct d; reflexivity).
  assert (Sn : py_name (k_store k) = true) by (rewrite Ek; destruct d; reflexivity).
  assert (Rn : py_name (k_rv k) = true).
  { rewrite forallb_forall in N. apply N. rewrite Ek. cbn [k_params k_rv]. rewrite map_app. apply in_or_app. right. cbn. auto. }
  destruct (gen_shaped _ _ Ps _ _ _ _ _ _ _ G P) as (_ & A & Ai); [intros y a E; discriminate E|intros y o []|].
  assert (Xn : py_name (k_result k) = true) by (rewrite Ek; exact (shaped_dest _ _ Ai X)).
  assert (Sh : Forall shaped (k_body k)) by (rewrite Ek; cbn [k_body]; apply Forall_forall; intros j J; exact (proj1 (Forall_forall _ _) A j (dedup_part [] loc j J))).
  assert (Ne : k_body k <> []).
  { destruct (gen_whole _ _ _ _ _ _ _ G) as (log & Gd & L & Li & _). assert (B0 : incl [] log) by (intros ? []). destruct (dedup_whole log Gd [] loc i B0 L Li) as [[]|Dd].
    rewrite Ek. cbn [k_body]. intros E. rewrite E in Dd. destruct Dd. }
  destruct (mapR_forall2 instr_str statement (k_body k)) as (ls & El & Fl). { eapply Forall_impl; [|exact Sh]. intros j J. exact (shaped_reads j J). }
  assert (Nl : ls <> []) by (intros ->; inversion Fl; congruence).
  set (store := (k_store k ++ "(outputCoord, " ++ k_rv k ++ ", " ++ k_result k ++ ");")%string).
  assert (St : stores k store).
  { unfold stores, store. apply (lexes_statement [TName (k_store k); LP; TName "outputCoord"; Comma; TName (k_rv k); Comma; TName (k_result k); RP] _ (k_store k ++ ("(" ++ ("outputCoord" ++ ", " ++ (k_rv k ++ ", " ++ k_result k)) ++ ")"))); [|strs].
    apply (lexes_cat _ [TName (k_store k)]); [apply word_name, Sn| |reflexivity|discriminate]. apply (lexes_paren _ [TName "outputCoord"; Comma; TName (k_rv k); Comma; TName (k_result k)]).
    apply (lexes_sep _ [TName "outputCoord"] _ [TName (k_rv k); Comma; TName (k_result k)]); [apply sep_comma|apply word_name; reflexivity|].
    apply (lexes_sep _ [TName (k_rv k)] _ [TName (k_result k)]); [apply sep_comma|apply word_name, Rn|apply word_name, Xn]. }
  set (head := ("void main(" ++ join ", " (map (fun p => ht_text (snd p) ++ " " ++ fst p) (k_params k)) ++ ") {")%string).
  assert (Hd : lex "" head = header_tokens (k_params k)).
  { unfold head, header_tokens. assert (J : lexes (join ", " (map (fun p => (ht_text (snd p) ++ " " ++ fst p)%string) (k_params k))) (tjoin Comma (map (fun p => [TName (c_header (snd p)); TName (fst p)]) (k_params k)))).
    { apply (lexes_join ", " Comma); [apply sep_comma|]. clear -N. induction (k_params k) as [|(y & h) l IH]; [constructor|]. cbn [map forallb fst snd] in N |- *. apply andb_prop in N as (Ny & N). constructor; [|apply IH, N].
      apply (lexes_gap _ [TName (c_header h)] _ [TName y]); [destruct h; apply word_name; reflexivity|apply word_name, Ny]. }
    revert J. generalize (join ", " (map (fun p => (ht_text (snd p) ++ " " ++ fst p)%string) (k_params k))). generalize (tjoin Comma (map (fun p => [TName (c_header (snd p)); TName (fst p)]) (k_params k))). intros ts w J.
    assert (Q : lexes ("void" ++ " " ++ "main" ++ ("(" ++ w ++ ")")) ([TName "void"] ++ [TName "main"] ++ LP :: ts ++ [RP])).
    { apply lexes_gap; [apply word_name; reflexivity|]. apply lexes_cat; [apply word_name; reflexivity|apply lexes_paren, J|reflexivity|discriminate]. }
    specialize (Q " {" eq_refl). replace ("void main(" ++ w ++ ") {")%string with (("void" ++ " " ++ "main" ++ "(" ++ w ++ ")") ++ " {")%string by strs. rewrite Q. cbn [app]. rewrite <- app_assoc. reflexivity. }
  unfold kernel_text. rewrite El. cbn [bindR]. fold store head. rewrite Vl. destruct ls as [|l0 ls]; [congruence|].
  destruct (k_shape k).
  - exists head. eexists. exists (l0 :: ls). eexists. exists store. split; [|auto 9]. reflexivity.
  - exists head. eexists. exists (l0 :: ls). eexists. exists store. split; [|auto 9]. reflexivity.
  - exists head. eexists. exists (l0 :: ls). eexists. exists store. split; [|auto 9]. reflexivity.
Qed.
Print Assumptions C51_text.


(** the blend of C51_case: a product and a division *)
Example C51_text_case :
  match gaudi_kernel [] UINT_8 20 blend with
  | Ok k => forallb py_name (map fst (k_params k)) = true /\ nth_error (k_body k) 6 = Some (mkI (Some "v6") (Some FLOAT256) None) /\
      exists e, nth_error (k_body k) 7 = Some (mkI None None (Some (CSet "v6" 1 e))) /\
        as_c e = Some (PCall (PName "v_f32_mul_b") [PAttr (PName "v4") "v1"; PName "v5"]) /\ statement "v6.v1 = v_f32_mul_b(v4.v1, v5);" (mkI None None (Some (CSet "v6" 1 e)))
  | Err _ => False
  end /\ decl_body blend = Ok blend_body /\ plain blend_body = true /\ (forall sel b, select_fn [] = Ok sel -> decl_body sel = Ok b -> plain b = true).
Proof.
  split; [|split; [reflexivity|split; [reflexivity|discriminate]]]. vm_compute gaudi_kernel. split; [reflexivity|]. split; [reflexivity|].
  eexists. split; [reflexivity|]. split; [reflexivity|]. exists "v6.v1 = v_f32_mul_b(v4.v1, v5)". eexists. split; [reflexivity|]. split; [vm_compute; reflexivity|].
  eexists. exists 40. split; vm_compute; reflexivity.
Qed.
(** an operation on numbers *)
Example C51_text_case_scalar :
  statement "uint8_t v2 = v0 - v1;" (mkI (Some "v2") (Some UINT8) (Some (CBin "-" (CId "v0") (CId "v1")))) /\
  ~ statement "uint8_t v2 = v1 - v0;" (mkI (Some "v2") (Some UINT8) (Some (CBin "-" (CId "v0") (CId "v1")))).
Proof.
  split.
  - exists "uint8_t v2 = v0 - v1". eexists. split; [reflexivity|]. split; [vm_compute; reflexivity|]. eexists. exists 40. split; vm_compute; reflexivity.
  - intros (u & ts & E & L & p & n & A & P). assert (U : u = "uint8_t v2 = v1 - v0").
    { apply (append_cancel_r _ _ ";"). symmetry. exact E. }
    subst u. vm_compute in L. injection L as <-. injection A as <-.
    assert (Q : parse 40 GCond [TName "v1"; Minus; TName "v0"] = Some (PBin OSub (PName "v1") (PName "v0"), [])) by (vm_compute; reflexivity).
    apply (parse_le _ (n + 40)) in P; [|lia]. apply (parse_le _ (n + 40)) in Q; [|lia]. rewrite P in Q. discriminate Q.
Qed.
