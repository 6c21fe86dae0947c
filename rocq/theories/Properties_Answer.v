(** C63: the answer of each language model becomes a solution that is tried. *)

From Coq Require Import String Ascii List Bool Arith Lia.
From Verif Require Import LuModel LuProofs Properties_Lu AnswerModel.
Import ListNotations.
Local Open Scope string_scope.

(** ** What each model's answer becomes.  [answer], [good_block]: Properties_Lu *)

(** GPT: the code of all blocks, with an empty line between them *)
Theorem C63_gpt_partial : forall l tail, Forall good_block l -> nowhere "```" tail ->
  exists s, replace_ite (String.concat (nl (nl "")) (map code l)) = Some s /\ get_solution Gpt (answer l tail) = Ok (PStr s).
Proof.
  intros l tail F T. destruct (C61_total (String.concat (nl (nl "")) (map code l))) as [_ (s & S)]. exists s. split; [exact S|].
  unfold get_solution. rewrite C61_extract_partial by assumption. unfold replaced.
  replace (join nl2 (map code l)) with (String.concat (nl (nl "")) (map code l)); [now rewrite S|].
  generalize (map code l). clear. induction l as [|a [|b l] IH]; [reflexivity..|].
  change (join nl2 (a :: b :: l)) with (a ++ nl2 ++ join nl2 (b :: l)). rewrite <- IH. reflexivity.
Qed.
Print Assumptions C63_gpt_partial.

(** Gemini: the code of the first block; a second block, for example with the second
    invariant, is lost *)
Theorem C63_gemini_partial : forall b l tail, Forall good_block (b :: l) -> nowhere "```" tail ->
  exists s, replace_ite (code b) = Some s /\ get_solution Gemini (answer (b :: l) tail) = Ok (PStr s).
Proof.
  intros b l tail F T. destruct (C61_total (code b)) as [_ (s & S)]. exists s. split; [exact S|].
  unfold get_solution. rewrite C61_extract_partial by assumption. cbn [map]. unfold replaced. now rewrite S.
Qed.
Print Assumptions C63_gemini_partial.
Definition two : list block := [Block "First: " "python" (nl "a = ite(c, 1, 2)"); Block "Second: " "" (nl "b")].
Lemma two_good : Forall good_block two /\ nowhere "```" ".".
Proof.
  split; [|apply only_end_none; [discriminate | now apply no_quote]].
  constructor; [|constructor; [|constructor]]; (split; [now apply no_quote | split; [now apply no_quote | split; [eexists; reflexivity | cbn; tauto]]]).
Qed.
Example C63_answers_case :
  get_solution Gpt (answer two ".") = Ok (PStr (nl "a = 1 if c else 2" ++ nl (nl (nl "b")))) /\
  get_solution Gemini (answer two ".") = Ok (PStr (nl "a = 1 if c else 2")).
Proof. split; reflexivity. Qed.

(** Without a code block the answer of Gemini ends the run, whatever the oracles are. *)
Theorem C63_gemini_refuted : forall llm rest n, nowhere "```" (llm "") -> (n <> 0)%nat -> ps_loop Gemini llm rest n [] = Raise IndexError.
Proof.
  intros llm rest n H N. destruct n as [|n]; [congruence|]. cbn. unfold get_solution.
  change (extract_all_python_functions (llm "")) with (extract (llm "")). now rewrite extract_none.
Qed.
Print Assumptions C63_gemini_refuted.
Example C63_gemini_refuted_case : ps_loop Gemini (fun _ => "I cannot.") (fun _ => Found) 3 [] = Raise IndexError.
Proof. reflexivity. Qed.

(** ** The loop over summaries *)

Lemma replace_all_total l : exists u, replace_all l = Some u.
Proof. induction l as [|s l (u & U)]; cbn [replace_all]; [eauto|]. destruct (C61_total s) as [_ (t & ->)]. rewrite U. eauto. Qed.
Lemma claude_list text : exists l, get_solution Claude text = Ok (PList l).
Proof.
  unfold get_solution. destruct (C61_total text) as [(l & ->) _]. destruct (replace_all_total l) as (u & ->). eauto.
Qed.

(** With Claude no run finds a solution, whatever it answers and even if every text would
    be verified: its answer is a list, which is never parsed, and which the next round
    cannot join. *)
Theorem C63_claude_refuted : forall llm rest n,
  ps_loop Claude llm rest n [] = Raise (if Nat.leb n 1 then NoSolution else TypeError).
Proof.
  intros llm rest [|[|n]]; [reflexivity| |]; destruct (claude_list (llm "")) as (l & E);
    cbn [ps_loop shown texts join]; rewrite E; reflexivity.
Qed.
Print Assumptions C63_claude_refuted.
Example C63_claude_case : ps_loop Claude (fun _ => answer two ".") (fun _ => Found) 10 [] = Raise TypeError.
Proof. reflexivity. Qed.

(** With GPT the loop itself raises nothing: it ends with a solution that was made from an
    answer and verified, or all answers were tried in vain, or the rest raised. *)
Theorem C63_gpt_loop : forall llm rest n,
  match ps_loop Gpt llm rest n [] with
  | Ok s => rest s = Found /\ exists history, get_solution Gpt (llm history) = Ok (PStr s)
  | Raise e => e = NoSolution \/ exists s history, get_solution Gpt (llm history) = Ok (PStr s) /\ rest s = Raises e
  end.
Proof.
  intros llm rest n. assert (T0 : exists l, texts [] = Some l) by (exists []; reflexivity). revert T0. generalize (@nil pyval).
  induction n as [|n IH]; intros sols (l & T); cbn [ps_loop]; [now left|].
  unfold shown. rewrite T. assert (G : forall text, exists s, get_solution Gpt text = Ok (PStr s)).
  { intros text. unfold get_solution, replaced. destruct (C61_total text) as [(k & ->) _]. destruct (C61_total (join nl2 k)) as [_ (s & ->)]. eauto. }
  destruct (G (llm (join nl1 l))) as (s & E). rewrite E. destruct (rest s) as [| |e] eqn:R; cbn.
  - apply IH. clear E R IH. revert l T. induction sols as [|[t|t] sols IH]; intros l T; cbn in *; [eauto| |discriminate].
    destruct (texts sols) as [k|]; [|discriminate]. destruct (IH k eq_refl) as (m & ->). eauto.
  - split; [exact R | eauto].
  - right. eauto.
Qed.
Print Assumptions C63_gpt_loop.
(** and every answer up to the first verified one is tried: if the first answers that a run
    sees are all rejected and the next one is verified, it is the result *)
Fixpoint seen (llm : string -> string) (k : nat) (earlier : list string) : list string :=
  match k with
  | O => earlier
  | S k' => match get_solution Gpt (llm (String.concat (nl "") earlier)) with
            | Ok (PStr s) => seen llm k' (earlier ++ [s])%list
            | _ => earlier
            end
  end.
Theorem C63_gpt_finds : forall llm rest n k,
  (forall s, In s (removelast (seen llm (S k) [])) -> rest s = Next) -> rest (last (seen llm (S k) []) "") = Found -> (k < n)%nat ->
  ps_loop Gpt llm rest n [] = Ok (last (seen llm (S k) []) "").
Proof.
  intros llm rest n k.
  assert (G : forall text, exists s, get_solution Gpt text = Ok (PStr s)).
  { intros text. unfold get_solution, replaced. destruct (C61_total text) as [(j & ->) _]. destruct (C61_total (join nl2 j)) as [_ (s & ->)]. eauto. }
  assert (J : forall l, join nl1 l = String.concat (nl "") l).
  { induction l as [|a [|b l] IH]; [reflexivity..|]. change (join nl1 (a :: b :: l)) with (a ++ nl1 ++ join nl1 (b :: l)). rewrite IH. reflexivity. }
  assert (X : forall l, texts (map PStr l) = Some l) by (induction l as [|a l IH]; cbn; [reflexivity | now rewrite IH]).
  assert (P : forall j l, exists m, seen llm j l = (l ++ m)%list).
  { induction j as [|j IH]; intros l; [exists []; now rewrite app_nil_r|]. cbn [seen]. destruct (G (llm (String.concat (nl "") l))) as (s & ->).
    destruct (IH (l ++ [s])%list) as (m & ->). exists (s :: m). now rewrite <- app_assoc. }
  change (@nil pyval) with (map PStr []). generalize (@nil string). revert n. induction k as [|k IH]; intros n l A F N; (destruct n as [|n]; [lia|]).
  - cbn [ps_loop seen] in *. unfold shown. rewrite X, J. destruct (G (llm (String.concat (nl "") l))) as (s & E). rewrite E in *.
    rewrite last_last in *. now rewrite F.
  - cbn [ps_loop]. unfold shown. rewrite X, J. change (seen llm (S (S k)) l) with
      (match get_solution Gpt (llm (String.concat (nl "") l)) with Ok (PStr s) => seen llm (S k) (l ++ [s])%list | _ => l end) in *.
    destruct (G (llm (String.concat (nl "") l))) as (s & E). rewrite E in *. rewrite (A s).
    + change (map PStr l ++ [PStr s])%list with (map PStr l ++ map PStr [s])%list. rewrite <- map_app. apply IH; [exact A | exact F | lia].
    + cbn [seen]. destruct (G (llm (String.concat (nl "") (l ++ [s])%list))) as (t & ->). destruct (P k ((l ++ [s]) ++ [t])%list) as (m & ->).
      rewrite <- app_assoc. rewrite removelast_app by discriminate. apply in_or_app. left. apply in_or_app. right. now left.
Qed.
Print Assumptions C63_gpt_finds.
Example C63_gpt_case :
  let llm := fun h => if String.eqb h "" then answer [Block "" "" (nl "a")] "" else answer [Block "" "c" (nl "b")] "" in
  let rest := fun s => if String.eqb s (nl "b") then Found else Next in
  seen llm 2 [] = [nl "a"; nl "b"] /\ ps_loop Gpt llm rest 5 [] = Ok (nl "b") /\ ps_loop Gpt llm rest 1 [] = Raise NoSolution.
Proof. repeat split; reflexivity. Qed.
