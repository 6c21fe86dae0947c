(** Reading back what LLVM prints about loops (C48). *)

From Coq Require Import String Ascii List Bool Arith Lia.
From Verif Require Import Ast LlModel UtilProofs PyProofs2 LoopModel.
Import ListNotations.
Local Open Scope string_scope.
Local Open Scope list_scope.

(** ** What LLVM prints

    This describes the output of [opt -analyze -loops] and is not code in /repo: for
    each function a heading, and for each loop a line with its blocks, each followed
    by marks. *)
Record lblock : Type := { k_name : string; k_header : bool; k_latch : bool; k_exiting : bool }.
Definition marks (b : lblock) : string :=
  ((if k_header b then "<header>" else "") ++ (if k_latch b then "<latch>" else "") ++
   (if k_exiting b then "<exiting>" else ""))%string.
Definition print_block (b : lblock) : string := ("%" ++ k_name b ++ marks b)%string.
Fixpoint commas (l : list string) : string :=
  match l with [] => "" | [w] => w | w :: r => (w ++ "," ++ commas r)%string end.
Definition newline : string := String (ascii_of_nat 10) "".
Fixpoint spaces (n : nat) : string := match n with O => "" | S n => String " " (spaces n) end.
(** [p_indent] spaces, and [p_depth] the depth in decimal digits *)
Record ploop : Type := { p_indent : nat; p_depth : string; p_blocks : list lblock }.
Definition print_loop (p : ploop) : string :=
  (spaces (p_indent p) ++ "Loop at depth " ++ p_depth p ++ " containing: " ++ commas (map print_block (p_blocks p)) ++ newline)%string.
Definition print_func (p : string * list ploop) : list string :=
  (heading ++ fst p ++ quote ++ ":" ++ newline)%string :: map print_loop (snd p).

Fixpoint all_chars (p : ascii -> bool) (s : string) : bool :=
  match s with "" => true | String a r => p a && all_chars p r end.
(** names of blocks that need no quotes, and of functions *)
Definition plain_char (c : ascii) : bool :=
  negb (is_space c) && negb (Ascii.eqb c ",") && negb (Ascii.eqb c "<") && negb (Ascii.eqb c "%") && negb (Ascii.eqb c "'").
Definition plain_name (s : string) : bool := negb (String.eqb s "") && all_chars plain_char s.

(** ** Strings *)

Lemma app_assoc_s (a b c : string) : ((a ++ b) ++ c = a ++ (b ++ c))%string.
Proof. induction a; cbn; congruence. Qed.
Lemma app_nil_s (a : string) : (a ++ "" = a)%string.
Proof. induction a; cbn; congruence. Qed.
Lemma after_app p s : after p (p ++ s)%string = Some s.
Proof. induction p; cbn; auto. now rewrite Ascii.eqb_refl. Qed.
Lemma all_chars_app p a b : all_chars p (a ++ b)%string = all_chars p a && all_chars p b.
Proof. induction a as [|c a IH]; cbn; auto. now rewrite IH, andb_assoc. Qed.
Lemma all_chars_impl (p q : ascii -> bool) s : (forall c, p c = true -> q c = true) -> all_chars p s = true -> all_chars q s = true.
Proof. intros H. induction s as [|c s IH]; cbn; auto. rewrite !andb_true_iff. intros [A B]. auto. Qed.
Lemma span_app p a b : all_chars p a = true -> span p (a ++ b)%string = ((a ++ fst (span p b))%string, snd (span p b)).
Proof.
  induction a as [|c a IH]; cbn; intros H; [destruct (span p b); reflexivity|]. apply andb_true_iff in H as [A B]. rewrite A, (IH B). reflexivity.
Qed.
Lemma delete_app c a b : delete_char c (a ++ b)%string = (delete_char c a ++ delete_char c b)%string.
Proof. induction a as [|d a IH]; cbn; auto. destruct (Ascii.eqb d c); cbn; congruence. Qed.
Lemma delete_none c a : all_chars (fun d => negb (Ascii.eqb d c)) a = true -> delete_char c a = a.
Proof. induction a as [|d a IH]; cbn; auto. rewrite andb_true_iff, negb_true_iff. intros [-> B]. rewrite IH; auto. Qed.
Lemma split_none c a : all_chars (fun d => negb (Ascii.eqb d c)) a = true -> split_at c a = [a].
Proof. induction a as [|d a IH]; cbn; auto. rewrite andb_true_iff, negb_true_iff. intros [-> B]. rewrite IH; auto. Qed.
Lemma split_app c a b : all_chars (fun d => negb (Ascii.eqb d c)) a = true -> split_at c (a ++ String c b)%string = a :: split_at c b.
Proof.
  induction a as [|d a IH]; cbn.
  - now rewrite Ascii.eqb_refl.
  - rewrite andb_true_iff, negb_true_iff. intros [-> B]. rewrite IH; auto.
Qed.
Lemma split_commas ws : ws <> [] -> Forall (fun w => all_chars (fun d => negb (Ascii.eqb d ",")) w = true) ws -> split_at "," (commas ws) = ws.
Proof.
  intros N F. induction F as [|w ws H F IH]; [contradiction|]. cbn [commas]. destruct ws as [|w' ws].
  - now apply split_none.
  - cbn [append]. rewrite split_app by exact H. f_equal. apply IH. discriminate.
Qed.
Lemma delete_commas c ws : c <> ","%char -> delete_char c (commas ws) = commas (map (delete_char c) ws).
Proof.
  intros N. induction ws as [|w ws IH]; [reflexivity|]. destruct ws as [|w' ws]; [reflexivity|].
  change (commas (w :: w' :: ws)) with (w ++ "," ++ commas (w' :: ws))%string. rewrite !delete_app, IH. cbn [map commas delete_char].
  destruct (Ascii.eqb_spec ","%char c); [congruence|]. reflexivity.
Qed.

(** searching *)
Lemma after_some p s r : after p s = Some r -> s = (p ++ r)%string.
Proof.
  revert s. induction p as [|a p IH]; cbn; intros s H; [congruence|]. destruct s as [|b s]; [discriminate|].
  destruct (Ascii.eqb_spec a b) as [->|]; [|discriminate]. now rewrite (IH _ H).
Qed.
(** a word that starts with [<] is not found in something without [<] *)
Lemma contains_skip c sub a b : all_chars (fun d => negb (Ascii.eqb d c)) a = true -> contains (String c sub) (a ++ b)%string = contains (String c sub) b.
Proof.
  induction a as [|d a IH]; intros H; [reflexivity|]. cbn in H. apply andb_true_iff in H as [A B]. apply negb_true_iff in A.
  change (String d a ++ b)%string with (String d (a ++ b)). cbn [contains after].
  rewrite Ascii.eqb_sym, A. now apply IH.
Qed.
(** a word without [<] is not found across a [<] *)
Lemma after_cross c sub a b : all_chars (fun d => negb (Ascii.eqb d c)) sub = true ->
  match after sub (a ++ String c b)%string with Some _ => true | None => false end =
  match after sub a with Some _ => true | None => false end.
Proof.
  revert a. induction sub as [|d sub IH]; intros a H; [destruct a; reflexivity|]. cbn in H. apply andb_true_iff in H as [A B]. apply negb_true_iff in A.
  destruct a as [|e a]; cbn; [now rewrite A|]. destruct (Ascii.eqb d e); auto.
Qed.
Lemma contains_cross c sub a b : sub <> "" -> all_chars (fun d => negb (Ascii.eqb d c)) sub = true ->
  contains sub (a ++ String c b)%string = contains sub a || contains sub (String c b).
Proof.
  intros N H. induction a as [|d a IH].
  - destruct sub; [contradiction|]. reflexivity.
  - pose proof (after_cross c sub (String d a) b H) as K.
    change (String d a ++ String c b)%string with (String d (a ++ String c b)) in *. cbn [contains].
    destruct (after sub (String d (a ++ String c b))), (after sub (String d a)); try discriminate K; auto.
Qed.

(** ** One line *)

Lemma plain_not c s : In c [","; "<"; "%"; "'"]%char -> all_chars plain_char s = true -> all_chars (fun d => negb (Ascii.eqb d c)) s = true.
Proof.
  intros IN. apply all_chars_impl. intros d. unfold plain_char. rewrite !andb_true_iff. intros ((((A & B) & C) & D) & E).
  cbn in IN. decompose [or] IN; subst; try contradiction; auto.
Qed.
Lemma plain_nonspace s : all_chars plain_char s = true -> all_chars (fun c => negb (is_space c)) s = true.
Proof. apply all_chars_impl. intros d. unfold plain_char. rewrite !andb_true_iff. tauto. Qed.
Definition no_latch (b : lblock) : Prop := contains "latch" (k_name b) = false.

Section Blk.
Variable b : lblock.
Hypothesis PL : plain_name (k_name b) = true.
Let pc : all_chars plain_char (k_name b) = true.
Proof. unfold plain_name in PL. apply andb_true_iff in PL. tauto. Qed.

Let text := (k_name b ++ marks b)%string.

Lemma blk_delete : delete_char "%" (print_block b) = text.
Proof.
  unfold print_block, text. cbn [append delete_char]. rewrite Ascii.eqb_refl, delete_app.
  rewrite (delete_none "%" (k_name b)) by (apply plain_not; cbn; auto). f_equal. unfold marks. destruct (k_header b), (k_latch b), (k_exiting b); reflexivity.
Qed.
Lemma blk_comma : all_chars (fun d => negb (Ascii.eqb d ",")) text = true.
Proof.
  unfold text. rewrite all_chars_app, (plain_not "," (k_name b)); cbn; auto. unfold marks. destruct (k_header b), (k_latch b), (k_exiting b); reflexivity.
Qed.
Lemma blk_space : all_chars (fun c => negb (is_space c)) (print_block b) = true.
Proof.
  unfold print_block. rewrite !all_chars_app, (plain_nonspace _ pc). unfold marks. destruct (k_header b), (k_latch b), (k_exiting b); reflexivity.
Qed.
Lemma blk_name : block_name text = Ok (k_name b).
Proof.
  unfold text. assert (NE : k_name b <> "") by (unfold plain_name in PL; apply andb_true_iff in PL as [A _]; apply negb_true_iff, String.eqb_neq in A; exact A).
  assert (LT : all_chars (fun d => negb (Ascii.eqb d "<")) (k_name b) = true) by (apply plain_not; cbn; auto).
  assert (SP : span (fun c => negb (Ascii.eqb c "<")) (k_name b ++ marks b)%string = (k_name b, marks b)).
  { rewrite span_app by exact LT. unfold marks. destruct (k_header b), (k_latch b), (k_exiting b); cbn [fst snd span append Ascii.eqb Bool.eqb negb]; rewrite app_nil_s; reflexivity. }
  destruct (k_name b) as [|c s] eqn:E; [contradiction|]. change (String c s ++ marks b)%string with (String c (s ++ marks b)) in *.
  cbn [block_name]. cbn in LT. apply andb_true_iff in LT as [L1 _]. apply negb_true_iff in L1. rewrite L1, SP. reflexivity.
Qed.
Lemma blk_header : contains "<header>" text = k_header b.
Proof.
  unfold text. rewrite contains_skip by (apply plain_not; cbn; auto). unfold marks. destruct (k_header b), (k_latch b), (k_exiting b); reflexivity.
Qed.
Lemma blk_exiting : contains "<exiting>" text = k_exiting b.
Proof.
  unfold text. rewrite contains_skip by (apply plain_not; cbn; auto). unfold marks. destruct (k_header b), (k_latch b), (k_exiting b); reflexivity.
Qed.
Lemma blk_latch : contains "<latch>" text = k_latch b.
Proof.
  unfold text. rewrite contains_skip by (apply plain_not; cbn; auto). unfold marks. destruct (k_header b), (k_latch b), (k_exiting b); reflexivity.
Qed.
Lemma blk_latch_word : contains "latch" text = contains "latch" (k_name b) || k_latch b.
Proof.
  unfold text, marks. destruct (k_header b), (k_latch b), (k_exiting b); cbn [append]; rewrite ?app_nil_s;
  try (rewrite contains_cross; [|discriminate|reflexivity]); try (f_equal; reflexivity). now rewrite orb_false_r.
Qed.
End Blk.

(** the loop that is read from a line *)
Definition read_loop (h : string) (bs : list lblock) : raw_loop :=
  {| rl_header := h;
     rl_body := map k_name (filter (fun b => negb (k_header b) && negb (k_exiting b) && negb (contains "latch" (k_name b) || k_latch b)) bs);
     rl_exits := map k_name (filter k_exiting bs);
     rl_latches := map k_name (filter k_latch bs) |}.

Lemma names_of_map p q bs : (forall b, In b bs -> p (k_name b ++ marks b)%string = q b) ->
  names_of p (map (fun b => (k_name b, (k_name b ++ marks b)%string)) bs) = map k_name (filter q bs).
Proof.
  unfold names_of. induction bs as [|b bs IH]; intros H; [reflexivity|]. cbn [map filter snd fst]. rewrite (H b (or_introl eq_refl)).
  assert (IH' := IH (fun c I => H c (or_intror I))). destruct (q b); cbn [map fst]; congruence.
Qed.
Lemma one_loop_ok bs h : bs <> [] -> Forall (fun b => plain_name (k_name b) = true) bs -> map k_name (filter k_header bs) = [h] ->
  one_loop (commas (map print_block bs)) = Ok (read_loop h bs).
Proof.
  intros NE F H. unfold one_loop, sorted_blocks.
  assert (D : split_at "," (delete_char "%" (commas (map print_block bs))) = map (fun b => (k_name b ++ marks b)%string) bs).
  { rewrite delete_commas by discriminate. rewrite map_map.
    assert (E : map (fun b => delete_char "%" (print_block b)) bs = map (fun b => (k_name b ++ marks b)%string) bs).
    { apply map_ext_in. intros b IN. rewrite Forall_forall in F. apply blk_delete. auto. }
    rewrite E. apply split_commas; [destruct bs; [contradiction|discriminate]|].
    rewrite Forall_forall in *. intros w W. apply in_map_iff in W as (b & <- & IN). apply blk_comma. auto. }
  rewrite D.
  assert (M : mapR (fun b => n <- block_name b ;; Ok (n, b)) (map (fun b => (k_name b ++ marks b)%string) bs) =
              Ok (map (fun b => (k_name b, (k_name b ++ marks b)%string)) bs)).
  { clear - F. induction F as [|b bs P F IH]; [reflexivity|]. cbn [map mapR]. rewrite (blk_name b P). cbn [bindR]. now rewrite IH. }
  rewrite M. cbn [bindR]. rewrite Forall_forall in F.
  rewrite (names_of_map _ k_header) by (intros b IN; apply blk_header; auto). rewrite H. unfold read_loop. f_equal. f_equal.
  - apply names_of_map. intros b IN. now rewrite blk_header, blk_exiting, blk_latch_word by auto.
  - apply names_of_map. intros b IN. now rewrite blk_exiting by auto.
  - apply names_of_map. intros b IN. now rewrite blk_latch by auto.
Qed.

(** ** The file *)

Definition good_loop (p : ploop) : Prop :=
  p_blocks p <> [] /\ Forall (fun b => plain_name (k_name b) = true) (p_blocks p) /\
  all_chars is_digit (p_depth p) = true /\ p_depth p <> "".

Lemma lstrip_spaces n s : lstrip (spaces n ++ s)%string = lstrip s.
Proof. induction n; cbn; auto. Qed.
Lemma commas_chars p ws : p ","%char = true -> Forall (fun w => all_chars p w = true) ws -> all_chars p (commas ws) = true.
Proof.
  intros C F. induction F as [|w ws H F IH]; [reflexivity|]. destruct ws as [|w' ws]; [exact H|].
  change (commas (w :: w' :: ws)) with (w ++ "," ++ commas (w' :: ws))%string. rewrite !all_chars_app, H, IH. cbn. now rewrite C.
Qed.
Lemma loop_line_ok p : good_loop p -> loop_line (print_loop p) = Some (commas (map print_block (p_blocks p))).
Proof.
  intros (NE & PL & DG & DN). unfold loop_line, print_loop. rewrite lstrip_spaces.
  set (blks := commas (map print_block (p_blocks p))).
  assert (L : lstrip ("Loop at depth " ++ p_depth p ++ " containing: " ++ blks ++ newline)%string = ("Loop at depth " ++ p_depth p ++ " containing: " ++ blks ++ newline)%string) by reflexivity.
  rewrite L, after_app, (span_app is_digit) by exact DG.
  assert (SD : span is_digit (" containing: " ++ blks ++ newline)%string = ("", (" containing: " ++ blks ++ newline)%string)) by reflexivity.
  rewrite SD. cbn [fst snd]. rewrite app_nil_s. destruct (String.eqb_spec (p_depth p) "") as [|_]; [contradiction|].
  rewrite after_app, span_app.
  - cbn [span newline fst]. change (negb (is_space (ascii_of_nat 10))) with false. cbn [fst]. rewrite app_nil_s.
    destruct (String.eqb_spec blks "") as [E|]; [|reflexivity]. exfalso. unfold blks in E. destruct (p_blocks p) as [|b bs]; [contradiction|].
    cbn [map] in E. unfold commas in E. destruct (map print_block bs); discriminate.
  - apply commas_chars; [reflexivity|]. rewrite Forall_forall in *. intros w W. apply in_map_iff in W as (b & <- & IN). apply blk_space. auto.
Qed.

(** lines that are not headings *)
Lemma loop_not_heading fn p : is_heading fn (print_loop p) = false.
Proof.
  unfold is_heading, print_loop. destruct (p_indent p) as [|n]; reflexivity.
Qed.
Lemma prefix_quote a b c : all_chars plain_char a = true -> all_chars plain_char b = true ->
  (match after (a ++ quote ++ ":") (b ++ quote ++ ":" ++ c)%string with Some _ => true | None => false end) = String.eqb a b.
Proof.
  revert b. induction a as [|x a IH]; intros b A B.
  - destruct b as [|y b]; [reflexivity|]. cbn [append quote after]. cbn in B. apply andb_true_iff in B as [B _].
    unfold plain_char in B. apply andb_true_iff in B as [_ B]. apply negb_true_iff in B. rewrite Ascii.eqb_sym, B. reflexivity.
  - destruct b as [|y b].
    + cbn [append quote after]. cbn in A. apply andb_true_iff in A as [A _]. unfold plain_char in A. apply andb_true_iff in A as [_ A]. apply negb_true_iff in A.
      rewrite A. reflexivity.
    + cbn in A, B. apply andb_true_iff in A as [_ A], B as [_ B]. cbn [append after String.eqb]. destruct (Ascii.eqb x y); [|reflexivity]. now apply IH.
Qed.
Lemma after_after p q s : after (p ++ q) (p ++ s)%string = after q s.
Proof. induction p; cbn [append after]; auto. now rewrite Ascii.eqb_refl. Qed.
Lemma is_heading_ok fn g : all_chars plain_char fn = true -> all_chars plain_char g = true ->
  is_heading fn (heading ++ g ++ quote ++ ":" ++ newline)%string = String.eqb fn g.
Proof. intros A B. unfold is_heading. rewrite after_after. now apply prefix_quote. Qed.
Lemma any_heading_ok g : plain_name g = true -> any_heading (heading ++ g ++ quote ++ ":" ++ newline)%string = true.
Proof.
  intros H. unfold any_heading. rewrite after_app. unfold plain_name in H. apply andb_true_iff in H as [NE PL].
  rewrite span_app by (now apply plain_nonspace).
  assert (E : fst (span (fun c => negb (is_space c)) (quote ++ ":" ++ newline)%string) = (quote ++ ":")%string) by reflexivity.
  rewrite E. cbn [fst]. destruct g as [|c g]; [discriminate|]. cbn [append]. cbn in PL. apply andb_true_iff in PL as [_ PL].
  assert (K : forall w, contains (String "'" ":") (w ++ String "'" ":")%string = true).
  { induction w as [|d w IH]; [reflexivity|]. change (String d w ++ String "'" ":")%string with (String d (w ++ String "'" ":")).
    cbn [contains]. destruct (after _ _); auto. }
  apply K.
Qed.
Lemma any_loop_line g : plain_name g = true -> loop_line (heading ++ g ++ quote ++ ":" ++ newline)%string = None.
Proof. intros _. reflexivity. Qed.

Lemma found_loops fn found ps rest : Forall good_loop ps ->
  found_lines fn found (map print_loop ps ++ rest) =
  (if found then map (fun p => commas (map print_block (p_blocks p))) ps else []) ++ found_lines fn found rest.
Proof.
  induction 1 as [|p ps G F IH]; [destruct found; reflexivity|]. cbn [map app found_lines]. rewrite loop_not_heading. destruct found.
  - rewrite (loop_line_ok p G), IH. reflexivity.
  - exact IH.
Qed.
Lemma found_file fn file : plain_name fn = true -> Forall (fun q => plain_name (fst q) = true /\ Forall good_loop (snd q)) file ->
  forall found, found_lines fn found (flat_map print_func file) =
  flat_map (fun q => if String.eqb fn (fst q) then map (fun p => commas (map print_block (p_blocks p))) (snd q) else []) file.
Proof.
  intros PF F. assert (CF : all_chars plain_char fn = true) by (unfold plain_name in PF; apply andb_true_iff in PF; tauto).
  induction F as [|[g ps] file [PG GL] F IH]; intros found; [reflexivity|]. cbn [flat_map print_func fst snd app found_lines].
  cbn [fst snd] in PG, GL. assert (CG : all_chars plain_char g = true) by (unfold plain_name in PG; apply andb_true_iff in PG; tauto).
  rewrite (is_heading_ok fn g CF CG). destruct (String.eqb fn g).
  - rewrite (found_loops fn true ps _ GL), IH. reflexivity.
  - rewrite (any_loop_line g PG), (any_heading_ok g PG). destruct found; cbn [negb]; rewrite (found_loops fn false ps _ GL), IH; reflexivity.
Qed.

(** for a file with the loops of several functions: those of [fn] *)
Theorem parse_loops_ok fn file before ps after hs :
  file = before ++ (fn, ps) :: after ->
  ~ In fn (map fst before) -> ~ In fn (map fst after) ->
  Forall (fun q => plain_name (fst q) = true /\ Forall good_loop (snd q)) file ->
  map (fun p => map k_name (filter k_header (p_blocks p))) ps = map (fun h => [h]) hs ->
  parse_loops (flat_map print_func file) fn = Ok (map (fun q => read_loop (fst q) (p_blocks (snd q))) (combine hs ps)).
Proof.
  intros -> N1 N2 F H. unfold parse_loops. 
  assert (PF : plain_name fn = true).
  { apply Forall_app in F as [_ F]. inversion F as [|? ? [P _] _]; subst. exact P. }
  rewrite (found_file fn _ PF F). rewrite flat_map_app. cbn [flat_map fst snd]. rewrite String.eqb_refl.
  assert (Z : forall l : list (string * list ploop), ~ In fn (map fst l) -> flat_map (fun q => if String.eqb fn (fst q) then map (fun p => commas (map print_block (p_blocks p))) (snd q) else []) l = []).
  { induction l as [|q l IH]; intros N; [reflexivity|]. cbn [flat_map]. destruct (String.eqb_spec fn (fst q)) as [E|_].
    - exfalso. apply N. left. now rewrite E.
    - apply IH. intros IN. apply N. now right. }
  rewrite (Z before N1), (Z after N2), app_nil_r. cbn [app].
  apply Forall_app in F as [_ F]. inversion F as [|? ? [_ G] _]; subst. cbn [snd] in G. clear - G H. revert hs H.
  induction G as [|p ps (NE & PL & _) G IH]; intros [|h hs] H; try discriminate; [reflexivity|]. cbn [map] in H. injection H as H1 H2.
  cbn [map combine mapR fst snd]. rewrite (one_loop_ok (p_blocks p) h NE PL H1). cbn [bindR]. now rewrite (IH hs H2).
Qed.
