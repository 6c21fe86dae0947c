(** Proofs about UtilModel.v. *)

From Coq Require Import String Ascii List ZArith Bool Lia Decimal DecimalString DecimalNat.
From Verif Require Import Ast Semantics Dict IrProofs IrProofs3 IrProofs6 UtilModel.
Import ListNotations.
Local Open Scope list_scope.
Local Open Scope string_scope.

(** ** strings *)

(** the character does not occur *)
Fixpoint lacks (c : ascii) (s : string) : Prop :=
  match s with EmptyString => True | String d r => d <> c /\ lacks c r end.

Lemma lacks_app c a b : lacks c (a ++ b) <-> lacks c a /\ lacks c b.
Proof. induction a; simpl; tauto. Qed.

Lemma uint_lacks u : lacks "_"%char (NilEmpty.string_of_uint u).
Proof. induction u; simpl; auto; split; auto; discriminate. Qed.

Lemma string_of_nat_lacks n : lacks "_"%char (string_of_nat n).
Proof. apply uint_lacks. Qed.

Lemma string_of_nat_inj n m : string_of_nat n = string_of_nat m -> n = m.
Proof.
  unfold string_of_nat. intros H. apply (f_equal NilEmpty.uint_of_string) in H.
  rewrite !NilEmpty.usu in H. injection H as H. now apply DecimalNat.Unsigned.to_uint_inj.
Qed.

Lemma split_last a : forall b d1 d2, lacks "_"%char d1 -> lacks "_"%char d2 ->
  a ++ String "_" d1 = b ++ String "_" d2 -> a = b /\ d1 = d2.
Proof.
  induction a as [|c a IH]; intros [|c' b] d1 d2 L1 L2 E; simpl in E.
  - injection E as E. auto.
  - injection E as E0 E. subst d1. apply lacks_app in L1. simpl in L1. tauto.
  - injection E as E0 E. subst d2. apply lacks_app in L2. simpl in L2. tauto.
  - injection E as <- E. destruct (IH b d1 d2 L1 L2 E) as [-> ->]. auto.
Qed.

(** the name ends in an underscore followed by a positive number *)
Definition ends_numbered (s : string) : Prop := exists b k, s = b ++ "_" ++ string_of_nat (S k).

Lemma format_inj a b i j : ~ ends_numbered a -> ~ ends_numbered b ->
  format_with_index a i = format_with_index b j -> a = b /\ i = j.
Proof.
  intros NA NB. destruct i as [|i], j as [|j]; cbn [format_with_index]; intros E.
  - auto.
  - destruct NA. exists b, j. exact E.
  - destruct NB. exists a, i. symmetry. exact E.
  - apply split_last in E; try apply string_of_nat_lacks. destruct E as [-> E].
    apply string_of_nat_inj in E. auto.
Qed.

Lemma dget_dset V (d : dict V) k v k' : dget (dset d k v) k' = if String.eqb k' k then Some v else dget d k'.
Proof.
  induction d as [|[k2 v2] d IH]; simpl.
  - reflexivity.
  - destruct (String.eqb_spec k k2) as [->|N]; simpl.
    + destruct (String.eqb k' k2); reflexivity.
    + rewrite IH. destruct (String.eqb_spec k' k2) as [->|N2]; [|reflexivity].
      destruct (String.eqb_spec k2 k); [congruence | reflexivity].
Qed.

Local Open Scope list_scope.

(** ** ObjectSet *)

Lemma os_contains_iff s k : os_contains s k = true <-> exists o, In o s /\ expr_eqb o k = true.
Proof. apply existsb_exists. Qed.

Lemma os_contains_false s k : os_contains s k = false <-> forall o, In o s -> expr_eqb o k = false.
Proof.
  split.
  - intros E o IN. destruct (expr_eqb o k) eqn:X; auto.
    assert (T : os_contains s k = true) by (apply os_contains_iff; eauto). congruence.
  - intros H. destruct (os_contains s k) eqn:X; auto. apply os_contains_iff in X as (o & IN & E).
    rewrite (H o IN) in E. discriminate.
Qed.

Lemma init_test o s : existsb (fun o' => expr_eqb o o') s = os_contains s o.
Proof.
  unfold os_contains. induction s as [|a s IH]; simpl; [reflexivity|]. now rewrite expr_eqb_sym, IH.
Qed.

Lemma os_init_from_fold objs : forall s, os_init_from s objs = fold_left os_add objs s.
Proof.
  induction objs as [|o r IH]; intros s; [reflexivity|]. cbn [os_init_from fold_left]. rewrite IH. f_equal.
  unfold os_add. rewrite init_test. reflexivity.
Qed.

Lemma step_is_add acc x : (if os_contains acc x then acc else os_add acc x) = os_add acc x.
Proof. unfold os_add, os_contains. destruct (existsb _ acc); reflexivity. Qed.

Lemma os_plus_fold s o : os_plus s o = fold_left os_add o (fold_left os_add s []).
Proof.
  unfold os_plus. cbv zeta.
  assert (E : forall l a, fold_left (fun acc x => if os_contains acc x then acc else os_add acc x) l a = fold_left os_add l a).
  { induction l; intros acc; cbn [fold_left]; [reflexivity|]. now rewrite step_is_add, IHl. }
  now rewrite !E.
Qed.

(** no two members are equal *)
Inductive distinct : list expr -> Prop :=
| di_nil : distinct []
| di_cons a l : (forall b, In b l -> expr_eqb a b = false) -> distinct l -> distinct (a :: l).

(** [s] is [l] without some of its members, in the same order *)
Inductive sublist {A} : list A -> list A -> Prop :=
| sl_nil : sublist [] []
| sl_keep a s l : sublist s l -> sublist (a :: s) (a :: l)
| sl_drop a s l : sublist s l -> sublist s (a :: l).

Lemma sublist_refl A (l : list A) : sublist l l.
Proof. induction l; constructor; auto. Qed.

Lemma sublist_app A (s l s' l' : list A) : sublist s l -> sublist s' l' -> sublist (s ++ s') (l ++ l').
Proof. induction 1; simpl; intros; auto; constructor; auto. Qed.

Lemma sublist_nil A (l : list A) : sublist [] l.
Proof. induction l; constructor; auto. Qed.

Lemma sublist_trans A (a b c : list A) : sublist a b -> sublist b c -> sublist a c.
Proof.
  intros H1 H2. revert a H1. induction H2; intros a' H1; auto.
  - inversion H1; subst; constructor; auto.
  - constructor; auto.
Qed.

Lemma sublist_filter A (f : A -> bool) s l : sublist s l -> sublist (filter f s) (filter f l).
Proof. induction 1; simpl; try destruct (f a); auto; constructor; auto. Qed.

Lemma sublist_in A (s l : list A) x : sublist s l -> In x s -> In x l.
Proof. induction 1; simpl; intuition. Qed.

Lemma distinct_app s k : distinct s -> (forall o, In o s -> expr_eqb o k = false) -> distinct (s ++ [k]).
Proof.
  induction 1; simpl; intros N.
  - constructor; [simpl; tauto | constructor].
  - constructor; auto. intros b IN. apply in_app_or in IN as [IN|[<-|[]]]; auto.
Qed.

Lemma add_distinct s k : distinct s -> distinct (os_add s k).
Proof.
  intros D. unfold os_add. fold (os_contains s k). destruct (os_contains s k) eqn:E; auto.
  apply distinct_app; auto. now apply os_contains_false.
Qed.

Lemma fold_add_distinct l : forall s, distinct s -> distinct (fold_left os_add l s).
Proof. induction l; intros s D; simpl; auto. apply IHl. now apply add_distinct. Qed.

Lemma fold_add_sublist l : forall s s0, sublist s s0 -> sublist (fold_left os_add l s) (s0 ++ l).
Proof.
  induction l as [|a l IH]; intros s s0 S; simpl; [now rewrite app_nil_r|].
  replace (s0 ++ a :: l) with ((s0 ++ [a]) ++ l) by (now rewrite <- app_assoc).
  apply IH. unfold os_add. destruct (existsb _ s).
  - rewrite <- (app_nil_r s). apply sublist_app; auto. apply sublist_nil.
  - apply sublist_app; auto. apply sublist_refl.
Qed.

Lemma add_covers s k x : (exists o, In o s /\ expr_eqb o x = true) \/ expr_eqb k x = true ->
  exists o, In o (os_add s k) /\ expr_eqb o x = true.
Proof.
  intros [(o & IN & E)|E]; unfold os_add; fold (os_contains s k); destruct (os_contains s k) eqn:C.
  - eauto.
  - exists o. split; auto. apply in_or_app. auto.
  - apply os_contains_iff in C as (o & IN & E2). exists o. split; auto. now apply (expr_eqb_trans o k x).
  - exists k. split; auto. apply in_or_app. simpl. auto.
Qed.

Lemma fold_add_covers l : forall s x,
  (exists o, In o (s ++ l) /\ expr_eqb o x = true) -> exists o, In o (fold_left os_add l s) /\ expr_eqb o x = true.
Proof.
  induction l as [|a l IH]; intros s x (o & IN & E); simpl.
  - rewrite app_nil_r in IN. eauto.
  - apply IH. apply in_app_or in IN as [IN|[<-|IN]].
    + destruct (add_covers s a x) as (o' & IN' & E'); [left; eauto|]. exists o'. split; auto. apply in_or_app. auto.
    + destruct (add_covers s a x) as (o' & IN' & E'); [auto|]. exists o'. split; auto. apply in_or_app. auto.
    + exists o. split; auto. apply in_or_app. auto.
Qed.

(** ** and / or *)

Lemma fold_exprs_ok k es : In k [KAnd; KOr] -> forall e,
  type_of e = Ok TBool -> Forall (fun e => type_of e = Ok TBool) es ->
  exists e', fold_exprs k e es = Ok e' /\ type_of e' = Ok TBool.
Proof.
  intros K. induction es as [|a es IH]; intros e T F; cbn [fold_exprs].
  - eauto.
  - inversion F as [|? ? A F']; subst.
    assert (E : mkBoolN k [e; a] = Ok (Node k TBool [e; a])).
    { unfold mkBoolN. cbn [check_types]. rewrite T, A. reflexivity. }
    rewrite E. cbn [bindR]. apply IH; auto.
Qed.

Definition opb (k : kind) : bool -> bool -> bool := match k with KAnd => andb | _ => orb end.

Lemma fold_exprs_eval I r k es : In k [KAnd; KOr] -> forall e e' b bs,
  fold_exprs k e es = Ok e' -> eval I r e = Some (VBool b) ->
  mapO (eval I r) es = Some (map VBool bs) ->
  eval I r e' = Some (VBool (fold_left (opb k) bs b)).
Proof.
  intros K. induction es as [|a es IH]; intros e e' b bs F E M; cbn [fold_exprs] in F.
  - injection F as <-. cbn [mapO] in M. destruct bs; [exact E | discriminate].
  - cbn [mapO] in M. destruct (eval I r a) as [v|] eqn:EA; [|discriminate].
    destruct (mapO (eval I r) es) as [vs|] eqn:ES; [|discriminate].
    destruct bs as [|b' bs]; [discriminate|]. cbn [map] in M. injection M as -> ->.
    destruct (mkBoolN k [e; a]) as [n|] eqn:N; [|discriminate]. cbn [bindR] in F.
    assert (N' : n = Node k TBool [e; a]).
    { unfold mkBoolN in N. destruct (check_types TBool [e; a]); cbn [bindR] in N; congruence. }
    subst n. cbn [fold_left]. apply (IH _ _ _ _ F); auto.
    destruct K as [<-|[<-|[]]]; cbn [eval mapO]; rewrite E, EA; cbn; destruct b, b'; reflexivity.
Qed.

Lemma fold_opb k bs : forall b, fold_left (opb k) bs b =
  match k with KAnd => forallb (fun x => x) (b :: bs) | _ => existsb (fun x => x) (b :: bs) end.
Proof.
  induction bs as [|b' bs IH]; intros b.
  - destruct k, b; reflexivity.
  - cbn [fold_left]. rewrite IH. destruct k, b, b'; reflexivity.
Qed.

Lemma nary_eval I r k es e' bs : In k [KAnd; KOr] ->
  nary_exprs k es = Ok e' -> mapO (eval I r) es = Some (map VBool bs) ->
  eval I r e' = Some (VBool (match k with KAnd => forallb (fun x => x) bs | _ => existsb (fun x => x) bs end)).
Proof.
  intros K N M. destruct es as [|e es]; [discriminate|]. cbn [nary_exprs] in N. cbn [mapO] in M.
  destruct (eval I r e) as [v|] eqn:E; [|discriminate].
  destruct (mapO (eval I r) es) as [vs|] eqn:ES; [|discriminate].
  destruct bs as [|b bs]; [discriminate|]. cbn [map] in M. injection M as -> ->.
  rewrite (fold_exprs_eval I r k es K e e' b bs N E ES). now rewrite fold_opb.
Qed.

Lemma mapO_bools I r l bs : mapO (eval I r) l = Some (map VBool bs) ->
  forall x, In x l -> exists b, eval I r x = Some (VBool b) /\ In b bs.
Proof.
  revert bs. induction l as [|a l IH]; intros bs M x IN; [contradiction|]. cbn [mapO] in M.
  destruct (eval I r a) as [v|] eqn:E; [|discriminate].
  destruct (mapO (eval I r) l) as [vs|] eqn:ES; [|discriminate].
  destruct bs as [|b bs]; [discriminate|]. cbn [map] in M. injection M as -> ->.
  destruct IN as [<-|IN]; [exists b; simpl; auto|].
  destruct (IH bs eq_refl x IN) as (b' & E' & IN'). exists b'. simpl. auto.
Qed.

Lemma mapO_bools_in I r l bs : mapO (eval I r) l = Some (map VBool bs) ->
  forall b, In b bs -> exists x, In x l /\ eval I r x = Some (VBool b).
Proof.
  revert bs. induction l as [|a l IH]; intros bs M b IN; cbn [mapO] in M.
  - destruct bs; [contradiction | discriminate].
  - destruct (eval I r a) as [v|] eqn:E; [|discriminate].
    destruct (mapO (eval I r) l) as [vs|] eqn:ES; [|discriminate].
    destruct bs as [|b' bs]; [discriminate|]. cbn [map] in M. injection M as -> ->.
    destruct IN as [<-|IN]; [exists a; simpl; auto|].
    destruct (IH bs eq_refl b IN) as (x & INx & Ex). exists x. simpl. auto.
Qed.

Lemma mapO_sub I r l bs l' : mapO (eval I r) l = Some (map VBool bs) -> (forall x, In x l' -> In x l) ->
  exists bs', mapO (eval I r) l' = Some (map VBool bs').
Proof.
  intros M. induction l' as [|a l' IH]; intros S.
  - exists []. reflexivity.
  - destruct (mapO_bools I r l bs M a (S a (or_introl eq_refl))) as (b & E & _).
    destruct (IH (fun x IN => S x (or_intror IN))) as (bs' & E').
    exists (b :: bs'). cbn [mapO]. now rewrite E, E'.
Qed.

Lemma forallb_incl (bs bs' : list bool) : (forall b, In b bs' -> In b bs) -> (forall b, In b bs -> In b bs') ->
  forallb (fun x => x) bs = forallb (fun x => x) bs' /\ existsb (fun x => x) bs = existsb (fun x => x) bs'.
Proof.
  intros A B. split.
  - destruct (forallb (fun x => x) bs) eqn:E; symmetry.
    + apply forallb_forall. intros x IN. rewrite forallb_forall in E. auto.
    + destruct (forallb (fun x => x) bs') eqn:E'; auto. rewrite <- E. symmetry. apply forallb_forall.
      intros x IN. rewrite forallb_forall in E'. auto.
  - destruct (existsb (fun x => x) bs) eqn:E; symmetry.
    + apply existsb_exists in E as (x & IN & X). apply existsb_exists. eauto.
    + destruct (existsb (fun x => x) bs') eqn:E'; auto. rewrite <- E. symmetry.
      apply existsb_exists in E' as (x & IN & X). apply existsb_exists. eauto.
Qed.

Lemma os_init_spec l :
  distinct (os_init l) /\ sublist (os_init l) l /\
  (forall x, (exists o, In o l /\ expr_eqb o x = true) <-> (exists o, In o (os_init l) /\ expr_eqb o x = true)).
Proof.
  unfold os_init. rewrite os_init_from_fold. split; [apply fold_add_distinct; constructor|].
  assert (S : sublist (fold_left os_add l []) l) by (apply (fold_add_sublist l [] []); constructor).
  split; [exact S|]. intros x. split.
  - intros H. now apply fold_add_covers.
  - intros (o & IN & E). exists o. split; auto. eapply sublist_in; eauto.
Qed.

(** ** the generated names are different *)

Local Open Scope string_scope.

Lemma append_assoc a : forall b c : string, (a ++ b) ++ c = a ++ b ++ c.
Proof. induction a; intros; simpl; [reflexivity | now rewrite IHa]. Qed.

Lemma lacks_dec c s : lacks c s \/ exists a b, s = a ++ String c b /\ lacks c b.
Proof.
  induction s as [|d s IH]; [left; exact Logic.I|]. destruct IH as [L|(a & b & E & L)].
  - destruct (ascii_dec d c) as [->|N]; [right; exists "", s; auto | left; simpl; auto].
  - right. exists (String d a), b. rewrite E. auto.
Qed.

Lemma ends_numbered_local h n : ends_numbered (h ++ "_" ++ n) -> ends_numbered ("_" ++ n).
Proof.
  intros (b & k & E). destruct (lacks_dec "_"%char n) as [L|(a & c & -> & L)].
  - apply split_last in E; auto using string_of_nat_lacks. destruct E as [_ ->]. exists "", k. reflexivity.
  - change ("_" ++ a ++ String "_" c) with (("_" ++ a) ++ String "_" c) in E.
    rewrite <- append_assoc in E. apply split_last in E; auto using string_of_nat_lacks. destruct E as [_ ->].
    exists ("_" ++ a), k. reflexivity.
Qed.

Lemma bump_spec d k d' n : bump d k = (d', n) ->
  (forall x, dget d' x = if String.eqb x k then Some n else dget d x) /\
  match dget d k with Some m => n = S m | None => n = O end.
Proof.
  unfold bump. destruct (dget d k) as [m|] eqn:E; intros [= <- <-]; (split; [intros x; apply dget_dset|]); lia.
Qed.

(** the invariant: every name handed out so far is a requested base name with an
    index that was used *)
Definition handed_ok (t : tracker) (xs : list string) : Prop :=
  NoDup xs /\
  forall x, In x xs -> exists m k c, x = format_with_index m k /\ dget (existing t) m = Some c /\ (k <= c)%nat /\ ~ ends_numbered m.

Lemma group_variable_ok t g n ty0 xs t' x :
  ~ ends_numbered ("_" ++ n) -> handed_ok t xs -> group_variable t g n ty0 = (t', x) -> handed_ok t' (x :: xs).
Proof.
  intros NE (ND & H) G. unfold group_variable in G.
  destruct (bump (existing t) (g ++ "_" ++ n)) as [e k] eqn:B. injection G as <- <-.
  apply bump_spec in B as [B1 B2].
  assert (NM : ~ ends_numbered (g ++ "_" ++ n)) by (intros X; now apply NE, (ends_numbered_local g)).
  change (g ++ String "_" n) with (g ++ "_" ++ n) in *.
  revert B1 B2 NM. generalize (g ++ "_" ++ n). intros my B1 B2 NM.
  split.
  - constructor; auto. intros IN. apply H in IN as (m & k' & c & E & D & L & NM').
    apply format_inj in E as [E1 E2]; auto. subst m k'. rewrite D in B2. lia.
  - intros x [<-|IN].
    + exists my, k, k. cbn [existing]. rewrite B1, String.eqb_refl. auto.
    + apply H in IN as (m & k' & c & E & D & L & NM'). cbn [existing].
      destruct (String.eqb_spec m my) as [EM|N].
      * subst m. exists my, k', k. rewrite B1, String.eqb_refl. rewrite D in B2. repeat split; auto. lia.
      * exists m, k', c. rewrite B1. rewrite (proj2 (String.eqb_neq _ _) N). auto.
Qed.
