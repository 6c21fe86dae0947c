(** Properties C41-C43: generated names, object sets, conjunction helpers. *)

From Coq Require Import String Ascii List ZArith Bool Lia.
From Verif Require Import Ast Semantics Dict IrProofs IrProofs3 IrProofs6 UtilModel UtilProofs Properties_IR.
Import ListNotations.
Local Open Scope list_scope.
Local Open Scope string_scope.

(** ** C41 *)

(** A client of a tracker asks for a group, for a variable of the i-th group it
    was given so far, or for a variable directly. *)
Inductive request : Type :=
| RGroup (name : string)
| RGroupVar (i : nat) (name : string) (t : ty)
| RVar (name : string) (t : ty).

(** the names of the variables handed out; [groups] are the groups given so far *)
Fixpoint serve (t : tracker) (given : list string) (rs : list request) : list string :=
  match rs with
  | [] => []
  | RGroup n :: r => let '(t', g) := tracker_group t n in serve t' (given ++ [g])%list r
  | RGroupVar i n ty0 :: r =>
      match nth_error given i with
      | Some g => let '(t', x) := group_variable t g n ty0 in x :: serve t' given r
      | None => serve t given r
      end
  | RVar n ty0 :: r => let '(t', x) := tracker_variable t n ty0 in x :: serve t' given r
  end.

(** Full statement (false): [forall rs, NoDup (serve new_tracker [] rs)].  A
    numbered name collides with a name that looks numbered: *)
Theorem C41_fresh_names_refuted : exists rs,
  (forall r, In r rs -> forall n t, r <> RVar n t) /\ ~ NoDup (serve new_tracker [] rs).
Proof.
  exists [RGroup "g"; RGroupVar 0 "y" TInt; RGroupVar 0 "y" TInt; RGroupVar 0 "y_1" TBool]. split.
  - intros r IN n t ->. simpl in IN. intuition discriminate.
  - vm_compute. intros H. inversion H as [|? ? _ H1]; subst. inversion H1 as [|? ? N _]; subst. simpl in N. tauto.
Qed.
Print Assumptions C41_fresh_names_refuted.

(** [VariableTracker.variable] never renames: the same name is handed out again,
    and its recorded type is overwritten. *)
Theorem C41_direct_refuted : forall t n ty1 ty2,
  let '(t1, x1) := tracker_variable t n ty1 in let '(t2, x2) := tracker_variable t1 n ty2 in
  x1 = x2 /\ dget (tracker_all t2) n = Some ty2.
Proof.
  intros. simpl. split; auto. unfold tracker_all. simpl. now rewrite dget_dset, String.eqb_refl.
Qed.
Print Assumptions C41_direct_refuted.

(** What holds: the variables requested through groups have different names,
    provided that no requested name ends in an underscore and a positive number. *)
Theorem C41_fresh_names_partial : forall rs,
  (forall r, In r rs -> forall n t, r <> RVar n t) ->
  (forall i n t, In (RGroupVar i n t) rs -> ~ exists b k, "_" ++ n = b ++ "_" ++ string_of_nat (S k)) ->
  NoDup (serve new_tracker [] rs).
Proof.
  intros rs NV NE.
  assert (G : forall rs t given xs, handed_ok t xs ->
    (forall r, In r rs -> forall n t, r <> RVar n t) ->
    (forall i n t, In (RGroupVar i n t) rs -> ~ ends_numbered ("_" ++ n)) ->
    NoDup (rev xs ++ serve t given rs)%list).
  { clear. induction rs as [|r rs IH]; intros t given xs OK NV NE; cbn [serve].
    - rewrite app_nil_r. apply NoDup_rev. apply OK.
    - destruct r as [n|i n ty0|n ty0].
      + destruct (tracker_group t n) as [t' g] eqn:E. apply IH; intros; try (eapply NV; simpl; eauto; fail); try (eapply NE; simpl; eauto; fail).
        unfold tracker_group in E. destruct (bump (groups t) n) as [gs k]. injection E as <- <-.
        destruct OK as [ND H]. split; auto.
      + destruct (nth_error given i) as [g|]; [|apply IH; intros; try (eapply NV; simpl; eauto; fail); try (eapply NE; simpl; eauto; fail); auto].
        destruct (group_variable t g n ty0) as [t' x] eqn:E.
        assert (OK' : handed_ok t' (x :: xs)) by (eapply group_variable_ok; eauto; eapply NE; simpl; eauto).
        specialize (IH t' given (x :: xs) OK'). cbn [rev] in IH. rewrite <- app_assoc in IH. apply IH;
          intros; try (eapply NV; simpl; eauto; fail); try (eapply NE; simpl; eauto; fail).
      + exfalso. eapply NV; [left; reflexivity | reflexivity]. }
  apply (G rs new_tracker [] []).
  - split; [constructor | intros x []].
  - exact NV.
  - exact NE.
Qed.
Print Assumptions C41_fresh_names_partial.

Example C41_nontrivial :
  serve new_tracker [] [RGroup "g"; RGroup "g"; RGroupVar 0 "y" TInt; RGroupVar 1 "y" TInt; RGroupVar 0 "y" TInt; RGroupVar 0 "y_0" TInt]
  = ["g_y"; "g_1_y"; "g_y_1"; "g_y_0"] /\ ~ (exists b k, "_" ++ "y_0" = b ++ "_" ++ string_of_nat (S k)).
Proof.
  split; [reflexivity|]. intros (b & k & E). change ("_" ++ "y_0") with ("_y" ++ String "_"%char "0") in E.
  apply split_last in E; [|simpl; intuition discriminate | apply string_of_nat_lacks].
  destruct E as [_ E]. apply (string_of_nat_inj 0 (S k)) in E. discriminate.
Qed.

Local Open Scope list_scope.

(** ** C42 *)

(** histories of operations on object sets *)
Inductive set_history : Type :=
| HInit (objs : list expr)
| HAdd (h : set_history) (o : expr)
| HPlus (h1 h2 : set_history)
| HMinus (h1 h2 : set_history).

(** what the code computes *)
Fixpoint run_history (h : set_history) : list expr :=
  match h with
  | HInit objs => os_init objs
  | HAdd h o => os_add (run_history h) o
  | HPlus h1 h2 => os_plus (run_history h1) (run_history h2)
  | HMinus h1 h2 => os_sub (run_history h1) (run_history h2)
  end.

(** [o] (or an object that [Object.__eq__] does not tell apart from it) is a
    member of the mathematical set *)
Fixpoint should_contain (h : set_history) (o : expr) : Prop :=
  match h with
  | HInit objs => exists x, In x objs /\ expr_eqb x o = true
  | HAdd h x => should_contain h o \/ expr_eqb x o = true
  | HPlus h1 h2 => should_contain h1 o \/ should_contain h2 o
  | HMinus h1 h2 => should_contain h1 o /\ ~ should_contain h2 o
  end.

(** all objects in the order in which they were given *)
Fixpoint given_order (h : set_history) : list expr :=
  match h with
  | HInit objs => objs
  | HAdd h o => given_order h ++ [o]
  | HPlus h1 h2 => given_order h1 ++ given_order h2
  | HMinus h1 h2 => given_order h1
  end.

(** Membership is right, no two members are equal, and members are given
    objects in the order of insertion. *)
Theorem C42_object_set : forall h,
  (forall o, os_contains (run_history h) o = true <-> should_contain h o) /\
  distinct (run_history h) /\
  sublist (run_history h) (given_order h).
Proof.
  induction h as [objs|h (IH & D & S) o|h1 (IH1 & D1 & S1) h2 (IH2 & D2 & S2)|h1 (IH1 & D1 & S1) h2 (IH2 & D2 & S2)];
    cbn [run_history should_contain given_order].
  - destruct (os_init_spec objs) as (D & S & C). split; [|auto]. intros o. rewrite os_contains_iff. symmetry. apply C.
  - split; [|split; [now apply add_distinct|]].
    + intros x. rewrite os_contains_iff, <- IH, os_contains_iff. split.
      * intros (y & IN & E). unfold os_add in IN. destruct (existsb _ _); [left; eauto|].
        apply in_app_or in IN as [IN|[<-|[]]]; eauto.
      * apply add_covers.
    + unfold os_add. destruct (existsb _ _).
      * rewrite <- (app_nil_r (run_history h)). apply sublist_app; auto. apply sublist_nil.
      * apply sublist_app; auto. apply sublist_refl.
  - rewrite os_plus_fold. split; [|split].
    + intros x. rewrite os_contains_iff, <- IH1, <- IH2, !os_contains_iff. split.
      * intros (y & IN & E).
        assert (SS : sublist (fold_left os_add (run_history h2) (fold_left os_add (run_history h1) [])) (run_history h1 ++ run_history h2)).
        { apply fold_add_sublist. apply (fold_add_sublist _ [] []). constructor. }
        apply (sublist_in _ _ _ _ SS) in IN. apply in_app_or in IN as [IN|IN]; eauto.
      * intros [(y & IN & E)|(y & IN & E)]; apply fold_add_covers.
        -- destruct (fold_add_covers (run_history h1) [] x) as (z & INz & Ez); [exists y; auto|].
           exists z. split; auto. apply in_or_app. auto.
        -- exists y. split; auto. apply in_or_app. auto.
    + apply fold_add_distinct, fold_add_distinct. constructor.
    + eapply sublist_trans; [|apply sublist_app; [exact S1 | exact S2]].
      apply fold_add_sublist. apply (fold_add_sublist _ [] []). constructor.
  - unfold os_sub. destruct (os_init_spec (filter (fun x => negb (os_contains (run_history h2) x)) (run_history h1))) as (D & S & C).
    assert (SF : sublist (filter (fun x => negb (os_contains (run_history h2) x)) (run_history h1)) (run_history h1)).
    { clear. induction (run_history h1); simpl; [constructor|]. destruct (negb _); constructor; auto. }
    split; [|split; [exact D | exact (sublist_trans _ _ _ _ S (sublist_trans _ _ _ _ SF S1))]].
    intros x. rewrite os_contains_iff, <- C, <- IH1, <- IH2, !os_contains_iff. split.
    + intros (y & IN & E). apply filter_In in IN as [IN N]. apply negb_true_iff in N. split; [eauto|].
      intros (z & INz & Ez). rewrite os_contains_false in N. specialize (N z INz).
      assert (T : expr_eqb z y = true) by (apply (expr_eqb_trans z x y); auto; now rewrite expr_eqb_sym). congruence.
    + intros [(y & IN & E) N]. exists y. split; auto. apply filter_In. split; auto. apply negb_true_iff.
      apply os_contains_false. intros z INz. destruct (expr_eqb z y) eqn:X; auto. destruct N.
      exists z. split; auto. now apply (expr_eqb_trans z y x).
Qed.
Print Assumptions C42_object_set.

Example C42_nontrivial :
  run_history (HMinus (HPlus (HAdd (HInit [x_; y_; x_]) y_) (HInit [z_; x_])) (HInit [y_])) = [x_; z_].
Proof. reflexivity. Qed.

(** ** C43 *)

(** [and_exprs]/[or_exprs] of non-empty lists of boolean expressions. *)
Theorem C43_exprs : forall es, es <> [] -> Forall (fun e => type_of e = Ok TBool) es ->
  exists a o, and_exprs es = Ok a /\ or_exprs es = Ok o /\ type_of a = Ok TBool /\ type_of o = Ok TBool /\
    forall I r bs, mapO (eval I r) es = Some (map VBool bs) ->
      eval I r a = Some (VBool (forallb (fun b => b) bs)) /\
      eval I r o = Some (VBool (existsb (fun b => b) bs)).
Proof.
  intros es NE F. destruct es as [|e es]; [congruence|]. inversion F as [|? ? T F']; subst.
  destruct (fold_exprs_ok KAnd es (or_introl eq_refl) e T F') as (a & A & TA).
  destruct (fold_exprs_ok KOr es (or_intror (or_introl eq_refl)) e T F') as (o & O & TO).
  exists a, o. split; [exact A|]. split; [exact O|]. split; [exact TA|]. split; [exact TO|].
  intros I r bs M. split.
  - exact (nary_eval I r KAnd (e :: es) a bs (or_introl eq_refl) A M).
  - exact (nary_eval I r KOr (e :: es) o bs (or_intror (or_introl eq_refl)) O M).
Qed.
Print Assumptions C43_exprs.

Theorem C43_empty_raises : and_exprs [] = Err ExValue /\ or_exprs [] = Err ExValue /\
  and_objects [] = Err ExValue /\ or_objects [] = Err ExValue.
Proof. repeat split. Qed.
Print Assumptions C43_empty_raises.

(** Full statement for objects (false): the objects are first put into an
    [ObjectSet], whose equality ignores types and identifies 1 with True, so a
    conjunct with a different meaning can be dropped. *)
Theorem C43_objects_refuted : exists os a I r,
  Forall (fun e => type_of e = Ok TBool) os /\ Forall wf os /\ and_objects os = Ok a /\
  mapO (eval I r) os = Some [VBool true; VBool false] /\ eval I r a = Some (VBool true).
Proof.
  exists [Eq2 x_ (IntLit 1); Eq2 x_ (BoolLit true)], (Eq2 x_ (IntLit 1)), I0, (env_of [("x"%string, VInt 1)]).
  split; [repeat constructor|]. split; [wf_list|]. repeat split.
Qed.
Print Assumptions C43_objects_refuted.

(** What holds: when members that compare equal have the same literals at the same
    positions. *)
Theorem C43_objects_partial : forall os, os <> [] -> Forall (fun e => type_of e = Ok TBool) os ->
  (forall e e', In e os -> In e' os -> expr_eqb e e' = true -> lits_agree e e') ->
  exists a o, and_objects os = Ok a /\ or_objects os = Ok o /\
    forall I r bs, mapO (eval I r) os = Some (map VBool bs) ->
      eval I r a = Some (VBool (forallb (fun b => b) bs)) /\
      eval I r o = Some (VBool (existsb (fun b => b) bs)).
Proof.
  intros os NE F AG. destruct (os_init_spec os) as (D & S & C).
  assert (SUB : forall x, In x (os_init os) -> In x os) by (intros x; now apply sublist_in).
  assert (NE' : os_init os <> []).
  { destruct os as [|e os]; [congruence|]. intros E.
    destruct (proj1 (C e)) as (o & IN & _); [exists e; split; [left; auto | apply expr_eqb_refl]|]. rewrite E in IN. contradiction. }
  assert (F' : Forall (fun e => type_of e = Ok TBool) (os_init os)).
  { rewrite Forall_forall in *. auto. }
  destruct (C43_exprs (os_init os) NE' F') as (a & o & A & O & TA & TO & EV).
  exists a, o. unfold and_objects, or_objects. rewrite A, O. cbn [bindR]. unfold mkBoolObj. rewrite TA, TO. cbn [bindR].
  split; [reflexivity|]. split; [reflexivity|].
  intros I r bs M. destruct (mapO_sub I r os bs (os_init os) M SUB) as (bs' & M').
  destruct (EV I r bs' M') as [EA EO]. rewrite EA, EO.
  destruct (forallb_incl bs bs') as [-> ->]; [| |auto].
  - intros b IN. destruct (mapO_bools_in I r _ _ M' b IN) as (x & INx & Ex).
    destruct (mapO_bools I r os bs M x (SUB x INx)) as (b' & Eb & INb). congruence.
  - intros b IN. destruct (mapO_bools_in I r _ _ M b IN) as (x & INx & Ex).
    destruct (proj1 (C x)) as (y & INy & Ey); [exists x; split; auto; apply expr_eqb_refl|].
    destruct (mapO_bools I r _ bs' M' y INy) as (b' & Eb & INb).
    rewrite (equal_same_value I y x r Ey (AG y x (SUB y INy) INx Ey)) in Eb. congruence.
Qed.
Print Assumptions C43_objects_partial.

Example C43_nontrivial :
  and_objects [Gt2 x_ y_; Gt2 y_ z_; Gt2 x_ y_] = Ok (And2 (Gt2 x_ y_) (Gt2 y_ z_)) /\
  eval I0 (env_of [("x"%string, VInt 3); ("y"%string, VInt 2); ("z"%string, VInt 1)]) (And2 (Gt2 x_ y_) (Gt2 y_ z_)) = Some (VBool true).
Proof. split; reflexivity. Qed.
