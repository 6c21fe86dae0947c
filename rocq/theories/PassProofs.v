(** The AddEmptyBlocks pass (C49). *)

From Coq Require Import String List ZArith Bool Lia.
From Verif Require Import Ast Semantics Dict PyModel PySem PyProofs2 PyProofs3 LlModel LlSem LlProofs2 LlProofs7 PassModel.
Import ListNotations.
Local Open Scope list_scope.

(** the blocks that the instructions of a block may jump to *)
Definition jump_targets (is : list instr) : list string :=
  flat_map (fun i => match i with IBr t => [t] | ICondBr _ t f => [t; f] | _ => [] end) is.

Section Pass.
Variable fresh : nat -> string.
Hypothesis INJ : forall i j, fresh i = fresh j -> i = j.

Notation SI := (split_instrs fresh).
Notation SB := (split_blocks fresh).

(** numbers of the new blocks *)
Lemma si_range is : forall k, k <= snd (SI k is) /\ forall x c, In (x, c) (snd (fst (SI k is))) -> exists i, k <= i < snd (SI k is) /\ x = fresh i.
Proof.
  induction is as [|i is IH]; intros k; [cbn; split; [lia|intros x c []]|].
  destruct i; cbn [split_instrs]; try (destruct (IH k) as [A B]; cbn [fst snd]; split; auto; fail).
  destruct (IH (S (S k))) as [A B]. cbn [fst snd]. split; [lia|].
  intros x c' [[= <- <-]|[[= <- <-]|IN]]; [exists k; split; [lia|auto] | exists (S k); split; [lia|auto]|].
  destruct (B x c' IN) as (i & ? & ?). exists i. split; [lia|auto].
Qed.
Lemma sb_range blks : forall k x c, In (x, c) (snd (SB k blks)) -> exists i, k <= i /\ x = fresh i.
Proof.
  induction blks as [|[b is] blks IH]; intros k x c; [intros []|]. cbn [split_blocks snd].
  intros IN. apply in_app_or in IN as [IN|IN].
  - destruct (proj2 (si_range is k) x c IN) as (i & ? & ?). exists i. split; [lia|auto].
  - destruct (IH _ x c IN) as (i & ? & ?). exists i. split; auto. pose proof (proj1 (si_range is k)). lia.
Qed.
Lemma si_keys is : forall k, NoDup (map fst (snd (fst (SI k is)))).
Proof.
  induction is as [|i is IH]; intros k; [constructor|]. destruct i; cbn [split_instrs fst snd]; auto.
  pose proof (proj2 (si_range is (S (S k)))) as R. unfold create_bb. cbn [map fst]. constructor; [|constructor]; auto.
  - cbn [In]. intros [E|IN]; [apply INJ in E; lia|]. apply in_map_iff in IN as ([x c'] & E & IN). destruct (R x c' IN) as (j & ? & ->). cbn in E. apply INJ in E. lia.
  - intros IN. apply in_map_iff in IN as ([x c'] & E & IN). destruct (R x c' IN) as (j & ? & ->). cbn in E. apply INJ in E. lia.
Qed.
Lemma sb_keys blks : forall k, NoDup (map fst (snd (SB k blks))).
Proof.
  induction blks as [|[b is] blks IH]; intros k; [constructor|]. cbn [split_blocks snd]. rewrite map_app.
  assert (AP : forall (l1 l2 : list string), NoDup l1 -> NoDup l2 -> (forall x, In x l1 -> In x l2 -> False) -> NoDup (l1 ++ l2)).
  { clear. induction l1 as [|x l1 IH]; cbn; intros l2 A B C; auto. inversion A; subst. constructor; eauto.
    rewrite in_app_iff. intros [|]; [contradiction|]. eapply C; eauto. }
  apply AP; auto using si_keys.
  intros x A B. apply in_map_iff in A as ([y c] & <- & A), B as ([z d] & E & B). cbn in E.
  destruct (proj2 (si_range is k) y c A) as (i & ? & ->). destruct (sb_range _ _ _ _ B) as (j & ? & ->). apply INJ in E. cbn in *. lia.
Qed.
Lemma sb_names blks : forall k, map fst (fst (SB k blks)) = map fst blks.
Proof. induction blks as [|[b is] blks IH]; intros k; [reflexivity|]. cbn [split_blocks fst map]. now rewrite IH. Qed.

(** ** Executions *)

Variable U : string -> list val -> option val.

(** what a block does: the same, except that a jump may go to a new block that goes on
    to where the jump went *)
Definition same_out (new : list (string * list instr)) (o o' : option lout) : Prop :=
  match o with
  | Some (Jump t s) => o' = Some (Jump t s) \/ exists n, o' = Some (Jump n s) /\ In (n, [IBr t]) new
  | _ => o' = o
  end.
Lemma si_steps is : forall k s, same_out (snd (fst (SI k is))) (lsteps U s is) (lsteps U s (fst (fst (SI k is)))).
Proof.
  assert (CON : forall new new' o o', incl new new' -> same_out new o o' -> same_out new' o o').
  { intros new new' o o' I H. unfold same_out in *. destruct o as [[s|t s|v|s]|]; auto. destruct H as [H|(n & H & IN)]; eauto. }
  induction is as [|i is IH]; intros k s; [reflexivity|].
  assert (OTHER : (forall c t f, i <> ICondBr c t f) -> SI k (i :: is) = (i :: fst (fst (SI k is)), snd (fst (SI k is)), snd (SI k is))).
  { intros N. destruct i; try reflexivity. exfalso. eapply N; reflexivity. }
  destruct i as [x t|x p src|v dst|op x a b|cond x a b|op x a|x p f args t|t|c t e|o|];
    try (rewrite OTHER by discriminate; cbn [fst snd lsteps];
         match goal with |- same_out _ (match ?st with _ => _ end) _ => destruct st as [[s'|t' s'|v'|s']|] eqn:?; cbn [same_out]; auto end).
  cbn [split_instrs fst snd lsteps lstep]. destruct (getv s c) as [[|b| | |]|]; cbn; auto. right.
  destruct b; eexists; (split; [reflexivity|]); cbn; auto.
Qed.

Lemma dget_sb blks : forall k b is, dget blks b = Some is ->
  exists k', dget (fst (SB k blks)) b = Some (fst (fst (SI k' is))) /\ incl (snd (fst (SI k' is))) (snd (SB k blks)).
Proof.
  induction blks as [|[c ic] blks IH]; intros k b is H; [discriminate|]. cbn [dget] in H. cbn [split_blocks fst snd dget].
  destruct (b =? c)%string.
  - injection H as ->. exists k. split; auto. intros x X. apply in_or_app. now left.
  - destruct (IH (snd (SI k ic)) b is H) as (k' & A & B). exists k'. split; auto. intros x X. apply in_or_app. right. auto.
Qed.
Lemma dget_sb_none blks k b : dget blks b = None -> dget (fst (SB k blks)) b = None.
Proof.
  revert k. induction blks as [|[c ic] blks IH]; intros k H; [reflexivity|]. cbn [dget] in H. cbn [split_blocks fst snd dget].
  destruct (b =? c)%string; [discriminate|]. apply IH. exact H.
Qed.

Variable blks : list (string * list instr).
Hypothesis NEW : forall i, ~ In (fresh i) (map fst blks).
Notation blks' := (add_empty_blocks fresh blks).

Lemma dget_app {A} (d1 d2 : dict A) x : dget (d1 ++ d2) x = match dget d1 x with Some a => Some a | None => dget d2 x end.
Proof. induction d1 as [|[y b] d1 IH]; cbn; auto. destruct (x =? y)%string; auto. Qed.

Lemma dget_old b is : dget blks b = Some is ->
  exists k, dget blks' b = Some (fst (fst (SI k is))) /\ incl (snd (fst (SI k is))) (snd (SB 0 blks)).
Proof.
  intros H. destruct (dget_sb blks 0 b is H) as (k & A & B). exists k. split; auto. unfold add_empty_blocks. rewrite dget_app, A. reflexivity.
Qed.
Lemma dget_new n c : In (n, c) (snd (SB 0 blks)) -> dget blks' n = Some c.
Proof.
  intros IN. unfold add_empty_blocks. rewrite dget_app.
  assert (N : dget (fst (SB 0 blks)) n = None).
  { destruct (dget (fst (SB 0 blks)) n) eqn:E; auto. apply dget_key in E. change (In n (map fst (fst (SB 0 blks)))) in E. rewrite sb_names in E.
    destruct (sb_range _ _ _ _ IN) as (i & _ & ->). exfalso. eapply NEW; eauto. }
  rewrite N. apply dget_nodup; auto. apply sb_keys.
Qed.

Lemma lsteps_jump is : forall s t s', lsteps U s is = Some (Jump t s') -> In t (jump_targets is).
Proof.
  induction is as [|i is IH]; intros s t s' H; [discriminate|]. cbn [lsteps] in H. unfold jump_targets. cbn [flat_map]. apply in_or_app.
  destruct (lstep U s i) as [[s1|t1 s1|w|s1]|] eqn:E; try discriminate.
  - right. eapply IH; eauto.
  - left. injection H as -> ->. destruct i as [x0 t0|x0 p [y [|]| | |]|v [y [|]| | |]|op x0 a b|cond x0 a b|op x0 a|x0 p f args t0|t0|c t0 e|[o|]|]; cbn in E; try discriminate;
    repeat match type of E with
    | match ?m with _ => _ end = _ => destruct m; try discriminate
    end; injection E as <- <-; cbn; auto;
    match goal with |- context [if ?b then _ else _] => destruct b; auto end.
Qed.

Hypothesis CLOSED : forall b is t, In (b, is) blks -> In t (jump_targets is) -> In t (map fst blks).

Theorem pass_runs res n : forall b s v, lrun U res blks n b s = Some v -> exists m, lrun U res blks' m b s = Some v.
Proof.
  induction n as [|n IH]; intros b s v R; [discriminate|]. cbn [lrun] in R. destruct (dget blks b) as [is|] eqn:D; [|discriminate].
  destruct (dget_old b is D) as (k & D' & I). pose proof (si_steps is k s) as SO. destruct (lsteps U s is) as [[s'|t s'|w|s']|]; try discriminate.
  - destruct (IH t s' v R) as [m M]. destruct SO as [SO|(x & SO & IN)].
    + exists (S m). cbn [lrun]. rewrite D', SO. exact M.
    + exists (S (S m)). cbn [lrun]. rewrite D', SO, (dget_new _ _ (I _ IN)). exact M.
  - exists 1. cbn [lrun]. rewrite D'. cbn in SO. rewrite SO. exact R.
  - exists 1. cbn [lrun]. rewrite D'. cbn in SO. rewrite SO. exact R.
Qed.
(** and back *)
Theorem pass_runs_back res m : forall b s v, In b (map fst blks) -> lrun U res blks' m b s = Some v -> exists n, lrun U res blks n b s = Some v.
Proof.
  induction m as [m IH] using lt_wf_ind. intros b s v INb R. destruct m as [|m]; [discriminate|]. cbn [lrun] in R.
  destruct (dget blks b) as [is|] eqn:D.
  - destruct (dget_old b is D) as (k & D' & I). rewrite D' in R. pose proof (si_steps is k s) as SO.
    destruct (lsteps U s is) as [[s'|t s'|w|s']|] eqn:LS; cbn [same_out] in SO.
    + rewrite SO in R. discriminate.
    + assert (GO : forall m', m' <= m -> lrun U res blks' m' t s' = Some v -> exists n, lrun U res blks n b s = Some v).
      { intros m' L R'. assert (INt : In t (map fst blks)) by (eapply CLOSED; [apply dget_in; exact D | eapply lsteps_jump; exact LS]).
        destruct (IH m' ltac:(lia) t s' v INt R') as [n N]. exists (S n). cbn [lrun]. rewrite D, LS. exact N. }
      destruct SO as [SO|(x & SO & IN)]; rewrite SO in R.
      * apply (GO m); auto.
      * destruct m as [|m]; [discriminate|]. cbn [lrun] in R. rewrite (dget_new _ _ (I _ IN)) in R. cbn [lsteps lstep] in R. apply (GO m); auto.
    + rewrite SO in R. exists 1. cbn [lrun]. rewrite D, LS. exact R.
    + rewrite SO in R. exists 1. cbn [lrun]. rewrite D, LS. exact R.
    + rewrite SO in R. discriminate.
  - exfalso. apply in_map_iff in INb as ([x c] & <- & IN). cbn in D.
    clear - D IN. induction blks as [|[y d] l IHl]; [destruct IN|]. cbn in D. destruct (String.eqb_spec x y); [discriminate|]. destruct IN as [[= -> ->]|IN]; [congruence|auto].
Qed.

(** ** The graph *)

Lemma targets_jump is ts t : targets is = Ok ts -> In t ts -> In t (jump_targets is).
Proof.
  unfold targets. intros H IN. destruct (last_instr is) as [i|] eqn:L; [|discriminate].
  assert (IL : In i is). { clear - L. revert L. induction is as [|j [|k r] IH]; cbn; intros L; [discriminate|injection L as <-; auto|]. right. now apply IH. }
  apply in_flat_map. exists i. split; auto. destruct i as [| | | | | | |t0|c t0 e|o|]; try discriminate; injection H as <-; cbn in *; tauto.
Qed.
Lemma si_targets is : forall k t, In t (jump_targets (fst (fst (SI k is)))) -> In t (jump_targets is) \/ exists i, k <= i < snd (SI k is) /\ t = fresh i.
Proof.
  induction is as [|i is IH]; intros k t; [intros []|]. unfold jump_targets in *.
  destruct i; cbn [split_instrs fst snd flat_map app]; try (intros IN; destruct (IH k t IN) as [|]; auto; fail).
  - intros [<-|IN]; [left; now left|]. destruct (IH k t IN) as [|]; auto. left. now right.
  - pose proof (proj1 (si_range is (S (S k)))) as R. intros [<-|[<-|IN]].
    + right. exists k. split; [lia|auto].
    + right. exists (S k). split; [lia|auto].
    + destruct (IH (S (S k)) t IN) as [|(j & ? & ?)]; [left; cbn; auto | right; exists j; split; [lia|auto]].
Qed.
Lemma si_last is : forall k c t e, last_instr (fst (fst (SI k is))) = Some (ICondBr c t e) ->
  exists j, k <= j /\ S j < snd (SI k is) /\ t = fresh j /\ e = fresh (S j) /\
    exists t0 e0, In (t, [IBr t0]) (snd (fst (SI k is))) /\ In (e, [IBr e0]) (snd (fst (SI k is))).
Proof.
  induction is as [|i is IH]; intros k c t e H; [discriminate|].
  destruct is as [|i2 is].
  - destruct i; cbn in H; try discriminate. injection H as <- <- <-. exists k. cbn. repeat split; auto. exists t0, f. auto.
  - assert (NE : forall k', fst (fst (SI k' (i2 :: is))) <> []) by (intros k'; destruct i2; discriminate).
    assert (LA : forall k' x, last_instr (x :: fst (fst (SI k' (i2 :: is)))) = last_instr (fst (fst (SI k' (i2 :: is))))).
    { intros k' x. destruct (fst (fst (SI k' (i2 :: is)))) eqn:E; [exfalso; eapply NE; eauto|reflexivity]. }
    destruct i; cbn [split_instrs] in *; cbn [fst snd] in *;
      try (rewrite LA in H; destruct (IH k c t e H) as (j & ? & ? & ? & ? & t1 & e1 & ? & ?); exists j; repeat split; auto; exists t1, e1; auto; fail).
    rewrite (LA (S (S k))) in H. destruct (IH (S (S k)) c t e H) as (j & ? & ? & ? & ? & t1 & e1 & ? & ?). exists j. repeat split; auto; try lia. exists t1, e1. cbn; auto.
Qed.

(** a changed block comes from a block with some range of numbers, and only it jumps
    to the new blocks of that range *)
Lemma sb_entry l : forall k b is', In (b, is') (fst (SB k l)) ->
  exists is k1, In (b, is) l /\ k <= k1 /\ is' = fst (fst (SI k1 is)) /\ incl (snd (fst (SI k1 is))) (snd (SB k l)).
Proof.
  induction l as [|[c ic] l IH]; intros k b is'; [intros []|]. cbn [split_blocks fst snd]. intros [[= <- <-]|IN].
  - exists ic, k. repeat split; auto; [now left|]. intros x X. apply in_or_app. now left.
  - destruct (IH _ _ _ IN) as (is & k1 & ? & ? & ? & ?). exists is, k1. split; [now right|]. split; [pose proof (proj1 (si_range ic k)); lia|]. split; auto.
    intros x X. apply in_or_app. right. auto.
Qed.
Lemma sb_unique l : (forall b is t, In (b, is) l -> In t (jump_targets is) -> forall i, t <> fresh i) ->
  forall k b1 is1 b2 is2 i, In (b1, is1) (fst (SB k l)) -> In (b2, is2) (fst (SB k l)) ->
  In (fresh i) (jump_targets is1) -> In (fresh i) (jump_targets is2) -> b1 = b2.
Proof.
  induction l as [|[c ic] l IH]; intros OLD k b1 is1 b2 is2 i I1 I2 T1 T2; [destruct I1|]. cbn [split_blocks fst snd] in *.
  assert (HD : forall is, is = fst (fst (SI k ic)) -> In (fresh i) (jump_targets is) -> i < snd (SI k ic)).
  { intros is -> T. destruct (si_targets ic k _ T) as [T'|(j & ? & E)]; [exfalso; eapply OLD; [left; reflexivity|exact T'|reflexivity]|]. apply INJ in E. lia. }
  assert (TL : forall b is, In (b, is) (fst (SB (snd (SI k ic)) l)) -> In (fresh i) (jump_targets is) -> snd (SI k ic) <= i).
  { intros b is IN T. destruct (sb_entry _ _ _ _ IN) as (is0 & k1 & J1 & J2 & -> & _).
    destruct (si_targets is0 k1 _ T) as [T'|(j & ? & E)]; [exfalso; eapply OLD; [right; exact J1|exact T'|reflexivity]|]. apply INJ in E. lia. }
  destruct I1 as [[= <- <-]|I1], I2 as [[= <- <-]|I2]; auto.
  - pose proof (HD _ eq_refl T1). pose proof (TL _ _ I2 T2). lia.
  - pose proof (HD _ eq_refl T2). pose proof (TL _ _ I1 T1). lia.
  - eapply (IH (fun b is t A => OLD b is t (or_intror A))); eauto.
Qed.
(** the new blocks jump to old ones *)
Lemma si_new is : forall k x c, In (x, c) (snd (fst (SI k is))) -> exists t, c = [IBr t] /\ In t (jump_targets is).
Proof.
  induction is as [|i is IH]; intros k x c; [intros []|]. unfold jump_targets in *.
  destruct i; cbn [split_instrs fst snd flat_map app]; try (intros IN; destruct (IH k x c IN) as (t1 & ? & ?); exists t1; split; auto; (assumption || now right)).
  unfold create_bb. intros [[= <- <-]|[[= <- <-]|IN]]; [exists t; cbn; auto|exists f; cbn; auto|].
  destruct (IH _ x c IN) as (t1 & ? & ?). exists t1. cbn. auto.
Qed.
Lemma sb_new l : forall k x c, In (x, c) (snd (SB k l)) -> exists b is t, In (b, is) l /\ c = [IBr t] /\ In t (jump_targets is).
Proof.
  induction l as [|[b is] l IH]; intros k x c; [intros []|]. cbn [split_blocks snd]. intros IN. apply in_app_or in IN as [IN|IN].
  - destruct (si_new is k x c IN) as (t & ? & ?). exists b, is, t. split; [now left|auto].
  - destruct (IH _ x c IN) as (b1 & is1 & t & ? & ?). exists b1, is1, t. split; [now right|auto].
Qed.

Lemma one_element (l : list string) b : (forall p, In p l -> p = b) -> cnt l b = 1 -> l = [b].
Proof.
  intros A C. destruct l as [|x [|y l]]; [discriminate| |].
  - now rewrite (A x (or_introl eq_refl)).
  - exfalso. pose proof (A x (or_introl eq_refl)) as ->. pose proof (A y (or_intror (or_introl eq_refl))) as ->. cbn -[string_dec] in C.
    destruct (string_dec b b); [lia|contradiction].
Qed.

Theorem pass_graph bs : NoDup (map fst blks) -> setup_blocks blks' = Ok bs ->
  forall b c t e, In b bs -> last_instr (b_instrs b) = Some (ICondBr c t e) ->
  t <> e /\ forall x, x = t \/ x = e -> exists xb, In xb bs /\ b_name xb = x /\ b_preds xb = [b_name b] /\ exists y, b_instrs xb = [IBr y].
Proof.
  intros ND ST b c t e IN L. pose proof (setup_graph _ _ ST) as GR.
  assert (ND' : NoDup (map fst blks')).
  { unfold add_empty_blocks. rewrite map_app, sb_names. pose proof (sb_keys blks 0) as K2. pose proof (fun x c H => sb_range blks 0 x c H) as RG.
    clear - ND K2 RG NEW. revert RG. generalize (snd (SB 0 blks)) K2. intros l2 K RG. 
    assert (D : forall x, In x (map fst blks) -> In x (map fst l2) -> False).
    { intros x A B. apply in_map_iff in B as ([y cc] & <- & B). destruct (RG y cc B) as (i & _ & E). cbn in A. rewrite E in A. eapply NEW; eauto. }
    revert ND D. generalize (map fst blks). induction l as [|z l IH]; intros N D; cbn; auto. inversion N; subst. constructor.
    - rewrite in_app_iff. intros [|]; [contradiction|]. eapply D; [now left|eauto].
    - apply IH; auto. intros x A B. eapply D; [right; exact A|exact B]. }
  assert (OLD : forall b is t, In (b, is) blks -> In t (jump_targets is) -> forall i, t <> fresh i).
  { intros b0 is0 t0 I0 T0 i ->. eapply NEW. eapply CLOSED; eauto. }
  pose proof (gr_instrs _ _ _ GR b IN) as INS. unfold add_empty_blocks in INS. apply in_app_or in INS as [INS|INS].
  2:{ destruct (sb_new _ _ _ _ INS) as (b1 & is1 & t1 & _ & E & _). rewrite E in L. discriminate. }
  pose proof INS as INS'. destruct (sb_entry _ _ _ _ INS) as (is & k1 & J1 & _ & EI & INC). rewrite EI in L.
  destruct (si_last is k1 c t e L) as (j & J3 & J4 & ET & EE & t0 & e0 & NT & NE).
  assert (TE : t <> e) by (rewrite ET, EE; intros E; apply INJ in E; lia).
  split; auto. intros x X.
  assert (XI : exists i y, x = fresh i /\ In (x, [IBr y]) (snd (SB 0 blks))).
  { destruct X as [->| ->]; [exists j, t0 | exists (S j), e0]; split; auto. }
  destruct XI as (i & y & XF & XN).
  assert (XB : exists xb, In xb bs /\ b_name xb = x).
  { assert (In x (map b_name bs)). { rewrite (gr_names _ _ _ GR). unfold add_empty_blocks. rewrite map_app. apply in_or_app. right. change x with (fst (x, [IBr y])). now apply in_map. }
    apply in_map_iff in H as (xb & ? & ?). eauto. }
  destruct XB as (xb & XB & XE). exists xb. split; auto. split; auto. split.
  - assert (TG : targets (b_instrs b) = Ok [e; t]) by (unfold targets; now rewrite EI, L).
    apply one_element.
    + intros p P. destruct (gr_preds _ _ _ GR xb p XB P) as (pb & ts & P1 & P2 & P3 & P4).
      pose proof (targets_jump _ _ _ P3 P4) as PT. rewrite XE, XF in PT.
      pose proof (gr_instrs _ _ _ GR pb P1) as PI. unfold add_empty_blocks in PI. apply in_app_or in PI as [PI|PI].
      * rewrite <- P2. eapply (sb_unique blks OLD 0); [exact PI|exact INS'|exact PT|].
        rewrite <- XF. eapply targets_jump; [exact TG|]. destruct X as [->| ->]; cbn; auto.
      * exfalso. destruct (sb_new _ _ _ _ PI) as (b1 & is1 & t1 & I1 & E & T1). rewrite E in PT. cbn in PT. destruct PT as [PT|[]]. eapply OLD; eauto.
    + unfold setup_blocks in ST. ok ST tls Etl. destruct (setup_ts _ _ Etl) as (S1 & S2 & S3). destruct (forallb _ tls); [|discriminate].
      injection ST as <-. apply in_map_iff in XB as ([x' isx] & <- & XB). cbn [b_preds b_name fst snd] in *. subst x'.
      pose proof (gr_instrs _ _ _ GR b IN) as PI. destruct (S2 _ PI) as (u & U1 & U2). cbn [fst snd] in U1, U2. rewrite TG in U1. injection U1 as <-.
      rewrite (preds_of_count x (b_name b) tls [e; t]); [|rewrite S1; exact ND' | exact U2].
      destruct X as [->| ->]; cbn -[string_dec].
      * destruct (string_dec e t); [congruence|]. destruct (string_dec t t); [reflexivity|contradiction].
      * destruct (string_dec e e); [|contradiction]. destruct (string_dec t e); [contradiction|reflexivity].
  - exists y. pose proof (gr_instrs _ _ _ GR xb XB) as XI. rewrite XE in XI.
    assert (In (x, [IBr y]) blks') by (unfold add_empty_blocks; apply in_or_app; now right).
    pose proof (dget_nodup _ _ _ ND' XI). pose proof (dget_nodup _ _ _ ND' H). congruence.
Qed.
End Pass.
