(** Proofs about metalift/vc.py, part 3: one block. *)

From Coq Require Import String List ZArith Bool Lia.
From Verif Require Import Ast Semantics Dict IrProofs OptProofs2 UtilProofs PySem PyProofs PyProofs2 PyProofs3 LlModel VcModel VcSem VcProofs1 VcProofs2.
Import ListNotations.
Local Open Scope list_scope.

Section MinstInd.
  Variable P : minst -> Prop.
  Hypotheses (H1 : forall x, P (MVal x)) (H2 : P MZero) (H3 : forall b, P (MLit b)) (H4 : forall p, P (MLoad p))
    (H5 : forall m, P m -> P (MNot m)) (H6 : forall m, P m -> P (MOr m))
    (H7 : forall f t args, Forall P args -> P (MCall f t args)) (H8 : P MOther).
  Fixpoint minst_ind' (m : minst) : P m :=
    match m with
    | MVal x => H1 x | MZero => H2 | MLit b => H3 b | MLoad p => H4 p
    | MNot m => H5 m (minst_ind' m) | MOr m => H6 m (minst_ind' m)
    | MCall f t args =>
        H7 f t args ((fix go (l : list minst) : Forall P l :=
                        match l with [] => Forall_nil P | x :: r => Forall_cons x (minst_ind' x) (go r) end) args)
    | MOther => H8
    end.
End MinstInd.

Lemma append_cancel a b c : (a ++ b = a ++ c)%string -> b = c.
Proof. induction a as [|x a IH]; cbn; auto. intros [= E]. auto. Qed.
Lemma full_inj fn x y : full fn x = full fn y -> x = y.
Proof. unfold full. intros E. apply append_cancel in E. now injection E. Qed.
Lemma numbered_inj p q n m : (p ++ "_" ++ string_of_nat n = q ++ "_" ++ string_of_nat m)%string -> n = m.
Proof.
  intros E. destruct (split_last p q (string_of_nat n) (string_of_nat m)) as [_ H]; auto using string_of_nat_lacks.
  now apply string_of_nat_inj.
Qed.

Section Walk.
Variables (I : interp) (G : sigs) (fn : string) (io : ty -> bool) (args : list (string * ty)) (asg bnames hvs : list string).
Hypothesis RESP : respects I G.
Hypothesis NAMES : NoDup (map fst args ++ asg ++ bnames).
Hypothesis FRESH : forall x p n, In x (map fst args ++ asg ++ bnames) -> In p hvs -> x <> (p ++ "_" ++ string_of_nat n)%string.
Notation typed := (typed G).
Notation okdict := (okdict G).
Notation okstate := (okstate G).
Notation tru := (tru I).
Notation path := (path I).
Notation link := (link I).
Notation fulln := (full fn).

(** ** The declared variables *)

Definition cls (n : nat) (x : string) (t : ty) : Prop :=
  (exists a, x = fulln a /\ In (a, t) args) \/
  (exists a, x = fulln a /\ In a asg /\ dget (g_regs G) a = Some t) \/
  (exists b, x = fulln b /\ In b bnames /\ t = TBool) \/
  (exists p m, x = fulln (p ++ "_" ++ string_of_nat m)%string /\ (m < n)%nat /\ In p hvs /\ dget (g_cells G) p = Some t).

Lemma cls_mono n m x t : (n <= m)%nat -> cls n x t -> cls m x t.
Proof. intros L [H|[H|[H|(p & k & A & B & C)]]]; [left; auto | right; left; auto | right; right; left; auto|]. right; right; right. exists p, k. split; auto. split; [lia | auto]. Qed.

Lemma nodup_disjoint A (l l' : list A) x : NoDup (l ++ l') -> In x l -> In x l' -> False.
Proof. induction l as [|y l IH]; cbn; [tauto|]. intros N [-> |X] Y; inversion N; subst; [apply H1, in_or_app; auto | eauto]. Qed.
Lemma nodup_r A (l l' : list A) : NoDup (l ++ l') -> NoDup l'.
Proof. induction l; cbn; auto. intros N; inversion N; auto. Qed.
Lemma nodup_l A (l l' : list A) : NoDup (l ++ l') -> NoDup l.
Proof. induction l; cbn; intros N; constructor; inversion N; subst; auto. intros X. apply H1, in_or_app. auto. Qed.
Lemma nodup_fst A B (l : list (A * B)) x t t' : NoDup (map fst l) -> In (x, t) l -> In (x, t') l -> t = t'.
Proof.
  induction l as [|[y u] l IH]; cbn; [tauto|]. intros N [E|X] [E'|Y]; inversion N; subst; [congruence| | |eauto]; exfalso; apply H1, in_map_iff.
  - injection E as -> ->. now exists (x, t').
  - injection E' as -> ->. now exists (x, t).
Qed.

Lemma fresh_not_cls n x t m p : cls n x t -> (n <= m)%nat -> In p hvs -> x <> fulln (p ++ "_" ++ string_of_nat m)%string.
Proof.
  intros C L P E. destruct C as [(a & -> & H)|[(a & -> & H & _)|[(b & -> & H & _)|(q & k & -> & H & _)]]]; apply full_inj in E.
  - apply (FRESH a p m); auto. apply in_or_app. left. apply in_map_iff. now exists (a, t).
  - apply (FRESH a p m); auto. apply in_or_app. right. apply in_or_app. auto.
  - apply (FRESH b p m); auto. apply in_or_app. right. apply in_or_app. auto.
  - apply numbered_inj in E. lia.
Qed.
Lemma cls_fun_name n p m t : cls n (fulln (p ++ "_" ++ string_of_nat m)%string) t -> In p hvs ->
  exists q, In q hvs /\ (m < n)%nat /\ dget (g_cells G) q = Some t /\ (q ++ "_" ++ string_of_nat m = p ++ "_" ++ string_of_nat m)%string.
Proof.
  intros C P. destruct C as [(a & E & H)|[(a & E & H & _)|[(b & E & H & _)|(q & k & E & H & Q & D)]]]; apply full_inj in E.
  - exfalso. apply (FRESH a p m); auto. apply in_or_app. left. apply in_map_iff. now exists (a, t).
  - exfalso. apply (FRESH a p m); auto. apply in_or_app. right. apply in_or_app. auto.
  - exfalso. apply (FRESH b p m); auto. apply in_or_app. right. apply in_or_app. auto.
  - pose proof (numbered_inj _ _ _ _ E). subst k. exists q. auto.
Qed.
Lemma numbered_inj1 p q n : (p ++ "_" ++ string_of_nat n = q ++ "_" ++ string_of_nat n)%string -> p = q.
Proof. intros E. destruct (split_last p q (string_of_nat n) (string_of_nat n)) as [H _]; auto using string_of_nat_lacks. Qed.

Lemma cls_fun n x t t' : cls n x t -> cls n x t' -> t = t'.
Proof.
  intros C C'. destruct C as [(a & E & H)|[(a & E & H & D)|[(b & E & H & D)|(q & k & E & H & Q & D)]]]; subst x.
  - destruct C' as [(a' & E & H')|[(a' & E & H' & D')|[(b' & E & H' & D')|(q' & k' & E & H' & Q' & D')]]]; apply full_inj in E; subst.
    + eapply nodup_fst; eauto. eapply nodup_l; eauto.
    + exfalso. eapply (nodup_disjoint _ _ _ a' NAMES); [apply in_map_iff; now exists (a', t) | apply in_or_app; auto].
    + exfalso. eapply (nodup_disjoint _ _ _ b' NAMES); [apply in_map_iff; now exists (b', t) | apply in_or_app; auto].
    + exfalso. eapply (FRESH _ q' k'); eauto. apply in_or_app. left. apply in_map_iff. exists ((q' ++ "_" ++ string_of_nat k')%string, t). split; auto.
  - destruct C' as [(a' & E & H')|[(a' & E & H' & D')|[(b' & E & H' & D')|(q' & k' & E & H' & Q' & D')]]]; apply full_inj in E; subst.
    + exfalso. eapply (nodup_disjoint _ _ _ a' NAMES); [apply in_map_iff; now exists (a', t') | apply in_or_app; auto].
    + congruence.
    + exfalso. eapply (nodup_disjoint _ _ _ b' (nodup_r _ _ _ NAMES)); eauto.
    + exfalso. eapply (FRESH _ q' k'); eauto. apply in_or_app. right. apply in_or_app. auto.
  - destruct C' as [(a' & E & H')|[(a' & E & H' & D')|[(b' & E & H' & D')|(q' & k' & E & H' & Q' & D')]]]; apply full_inj in E; subst.
    + exfalso. eapply (nodup_disjoint _ _ _ a' NAMES); [apply in_map_iff; now exists (a', t') | apply in_or_app; auto].
    + exfalso. eapply (nodup_disjoint _ _ _ a' (nodup_r _ _ _ NAMES)); eauto.
    + congruence.
    + exfalso. eapply (FRESH _ q' k'); eauto. apply in_or_app. right. apply in_or_app. auto.
  - destruct (cls_fun_name n q k t' C' Q) as (q' & Q' & L & D' & E). apply numbered_inj1 in E. congruence.
Qed.

Definition is_var (n : nat) (v : expr) : Prop := exists x t, v = mkVar x t /\ cls n x t.
Record glob_ok (g : vglob) : Prop := { go_vars : Forall (is_var (q_num g)) (q_vars g); go_nd : NoDup (q_vars g) }.

(** the variables that occur in symbolic values: arguments and havocked cells *)
Definition priv (x : string) : bool := smem x (map fulln (asg ++ bnames)).
Definition used (g : vglob) : list (string * ty) :=
  flat_map (fun v => match v with Node _ t [Atom (PStr x)] => if priv x then [] else [(x, t)] | _ => [] end) (q_vars g).
Lemma used_in g x t : glob_ok g -> (In (x, t) (used g) <-> In (mkVar x t) (q_vars g) /\ priv x = false).
Proof.
  intros [F _]. unfold used. rewrite in_flat_map. split.
  - intros (v & IN & H). rewrite Forall_forall in F. destruct (F v IN) as (y & u & -> & _). cbn in H. destruct (priv y) eqn:P; [destruct H|].
    destruct H as [[= -> ->]|[]]. auto.
  - intros [IN P]. exists (mkVar x t). split; auto. cbn. rewrite P. now left.
Qed.
Lemma nodup_flat A B (f : A -> list B) l : NoDup l -> (forall a, NoDup (f a)) -> (forall a b x, In a l -> In b l -> In x (f a) -> In x (f b) -> a = b) -> NoDup (flat_map f l).
Proof.
  induction l as [|a l IH]; cbn; intros N S D; [constructor|]. inversion N; subst.
  assert (X : NoDup (flat_map f l)) by (apply IH; eauto). specialize (S a).
  assert (DJ : forall x, In x (f a) -> In x (flat_map f l) -> False).
  { intros x X1 X2. apply in_flat_map in X2 as (b & B1 & B2). assert (a = b) by eauto. congruence. }
  clear - S X DJ. induction (f a) as [|y r IH]; cbn; auto. inversion S; subst. constructor.
  - intros Y. apply in_app_or in Y as [Y|Y]; [auto | apply (DJ y); auto; now left].
  - apply IH; auto. intros x X1. apply DJ. now right.
Qed.
Lemma NoDup_app_snoc A (l : list A) x : NoDup l -> ~ In x l -> NoDup (l ++ [x]).
Proof.
  induction l as [|y l IH]; cbn; intros N NI; [constructor; auto; constructor|]. inversion N; subst. constructor; auto.
  intros X. apply in_app_or in X as [X|[X|[]]]; auto.
Qed.
Lemma map_flat_map A B C (f : B -> C) (h : A -> list B) l : map f (flat_map h l) = flat_map (fun a => map f (h a)) l.
Proof. induction l as [|a l IH]; cbn; auto. now rewrite map_app, IH. Qed.
Lemma used_nodup g : glob_ok g -> NoDup (map fst (used g)).
Proof.
  intros [F N]. unfold used. rewrite map_flat_map. apply nodup_flat; auto.
  - intros a. repeat match goal with |- NoDup (map _ (match ?x with _ => _ end)) => destruct x end; cbn; repeat constructor; auto.
  - intros a b x A B. rewrite Forall_forall in F. destruct (F a A) as (y & t & -> & C), (F b B) as (y' & t' & -> & C'). cbn.
    destruct (priv y); [intros []|]. destruct (priv y'); [intros _ []|]. intros [X1|[]] [X2|[]]. cbn in X1, X2. subst y y'.
    now rewrite (cls_fun _ _ _ _ C C').
Qed.

Definition ext (g g' : vglob) : Prop := (exists l, q_vars g' = q_vars g ++ l) /\ (q_num g <= q_num g')%nat.
Lemma ext_refl g : ext g g.
Proof. split; [exists []; now rewrite app_nil_r | lia]. Qed.
Lemma ext_trans a b c : ext a b -> ext b c -> ext a c.
Proof. intros [[l E] L] [[l' E'] L']. split; [exists (l ++ l'); rewrite E', E; now rewrite app_assoc | lia]. Qed.
Lemma ext_used g g' : ext g g' -> incl (used g) (used g').
Proof. intros [[l E] _]. unfold used. rewrite E, flat_map_app. apply incl_appl, incl_refl. Qed.
Lemma ext_vars g g' : ext g g' -> incl (q_vars g) (q_vars g').
Proof. intros [[l E] _]. rewrite E. apply incl_appl, incl_refl. Qed.

Definition ty_of_arg (a : tyarg) : ty := match a with TypeRef t | IrClass t => t end.
Lemma declared_in n x t vs : Forall (is_var n) vs -> (declared x t vs = true <-> In (mkVar x t) vs).
Proof.
  intros F. unfold declared. rewrite existsb_exists. rewrite Forall_forall in F. split.
  - intros (v & IN & H). destruct (F v IN) as (y & u & -> & _). cbn in H. apply andb_true_iff in H as [H H'].
    apply String.eqb_eq in H. apply IrProofs.ty_eqb_eq in H'. subst. exact IN.
  - intros IN. exists (mkVar x t). split; auto. cbn. rewrite String.eqb_refl, IrProofs.ty_eqb_refl. reflexivity.
Qed.
Lemma make_var_ok g n a e g' : make_var fn io g n a = Ok (e, g') -> glob_ok g -> cls (q_num g) (fulln n) (ty_of_arg a) ->
  e = mkVar (fulln n) (ty_of_arg a) /\ glob_ok g' /\ ext g g' /\ q_num g' = q_num g /\ In e (q_vars g').
Proof.
  intros H GO C. unfold make_var in H. ok H t E.
  assert (t = ty_of_arg a) as -> by (destruct a as [u|u]; cbn in E |- *; [congruence | destruct (io u); congruence]).
  injection H as <- <-. cbn [q_num q_vars]. split; auto. destruct GO as [F N].
  destruct (declared (fulln n) (ty_of_arg a) (q_vars g)) eqn:D.
  - split; [constructor; auto|]. split; [split; [exists []; cbn; now rewrite app_nil_r | cbn; lia]|]. split; auto. eapply declared_in; eauto.
  - split; [|split; [split; [eexists; reflexivity | cbn; lia] | split; auto; apply in_or_app; right; now left]].
    assert (NI : ~ In (mkVar (fulln n) (ty_of_arg a)) (q_vars g)) by (rewrite <- (declared_in (q_num g)); auto; congruence).
    constructor; cbn [q_vars q_num].
    + apply Forall_app. split; auto. constructor; auto. eexists _, _. split; eauto.
    + apply NoDup_app_snoc; auto.
Qed.
Lemma make_vars_ok : forall l g es g', make_vars fn io g l = Ok (es, g') -> glob_ok g ->
  Forall (fun p => cls (q_num g) (fulln (fst p)) (ty_of_arg (snd p))) l ->
  es = map (fun p => mkVar (fulln (fst p)) (ty_of_arg (snd p))) l /\ glob_ok g' /\ ext g g' /\ q_num g' = q_num g /\ incl es (q_vars g').
Proof.
  induction l as [|[n a] l IH]; intros g es g' H GO F; cbn [make_vars] in H.
  - injection H as <- <-. split; auto. split; auto. split; [apply ext_refl|]. split; auto. intros x [].
  - ok H p E. ok H q E'. injection H as <- <-. destruct p as [e g1], q as [es1 g2]. cbn [fst snd] in *. inversion F as [|? ? C F']; subst; cbn [fst snd] in *.
    destruct (make_var_ok _ _ _ _ _ E GO C) as (-> & GO1 & X1 & N1 & IN1).
    destruct (IH _ _ _ E' GO1) as (-> & GO2 & X2 & N2 & IN2); [now rewrite N1|].
    split; auto. split; auto. split; [eapply ext_trans; eauto|]. split; [congruence|].
    intros x [<-|X]; auto. apply (ext_vars _ _ X2). auto.
Qed.

(** ** Operands and conditions *)

Lemma is_ty_some o t : is_ty o t = true -> o = Some t.
Proof. destruct o as [u|]; cbn; [|discriminate]. intros H. apply IrProofs.ty_eqb_eq in H. now subst. Qed.
Lemma okdict_get U T d x e t : okdict U T d -> dget d x = Some e -> dget T x = Some t -> typed U e t.
Proof. intros [_ H] D E. destruct (H x e D) as (t' & A & B). congruence. Qed.
Lemma okdict_set U T d x e t : okdict U T d -> dget T x = Some t -> typed U e t -> okdict U T (dset d x e).
Proof.
  intros [N H] E TY. split; [now apply dset_nodup|]. intros y e'. rewrite dget_dset. destruct (String.eqb_spec y x) as [->|_]; [|apply H].
  intros [= <-]. eauto.
Qed.

Lemma op_typed U k o t e regs : ok_op G k o t = true -> parse_operand o regs = Ok e -> okdict U (g_regs G) regs -> typed U e t.
Proof.
  intros O P D. destruct o as [x|z| |]; cbn in O, P.
  - apply andb_true_iff in O as [_ O]. apply is_ty_some in O. destruct (dget regs x) eqn:X; [|discriminate]. injection P as <-. eapply okdict_get; eauto.
  - apply IrProofs.ty_eqb_eq in O; subst. injection P as <-. constructor.
  - apply IrProofs.ty_eqb_eq in O; subst. injection P as <-. constructor.
  - apply IrProofs.ty_eqb_eq in O; subst. injection P as <-. constructor.
Qed.
Lemma op_linked r k s c o t e : link r k s c -> ok_op G k o t = true -> parse_operand o (w_regs s) = Ok e ->
  exists v, eval I r e = Some v /\ op_value c o = Some v.
Proof.
  intros [L _] O P. destruct o as [x|z| |]; cbn in O, P; try (injection P as <-; cbn; eauto; fail).
  apply andb_true_iff in O as [O _]. apply smem_in in O. destruct (L x O) as (e' & v & D & E & C). rewrite D in P. injection P as <-. eauto.
Qed.

Lemma all2_inv A B (f : A -> B -> bool) l l' : all2 f l l' = true -> Forall2 (fun a b => f a b = true) l l'.
Proof. revert l'. induction l as [|a l IH]; intros [|b l']; cbn; try discriminate; [constructor|]. intros H. apply andb_true_iff in H as [A1 A2]. constructor; auto. Qed.

Lemma min_typed U k s : okstate U s -> forall m t e, ok_min G k m t = true -> eval_minst (w_regs s) (w_mem s) m = Ok e -> typed U e t.
Proof.
  intros OS. induction m as [x| |b|p|m IH|m IH|f u l IH|] using minst_ind'; intros t e O E; cbn [ok_min eval_minst] in O, E.
  - apply andb_true_iff in O as [_ O]. apply is_ty_some in O. destruct (dget (w_regs s) x) eqn:X; [|discriminate]. injection E as <-.
    eapply okdict_get; eauto. apply OS.
  - apply IrProofs.ty_eqb_eq in O; subst. injection E as <-. constructor.
  - apply IrProofs.ty_eqb_eq in O; subst. injection E as <-. constructor.
  - apply andb_true_iff in O as [_ O]. apply is_ty_some in O. destruct (dget (w_mem s) p) eqn:X; [|discriminate]. injection E as <-.
    eapply okdict_get; eauto. apply OS.
  - apply andb_true_iff in O as [O O']. apply IrProofs.ty_eqb_eq in O; subst. ok E e1 E1. unfold mkNot in E. ok E q E2. injection E as <-.
    constructor. eauto.
  - apply andb_true_iff in O as [O O']. apply IrProofs.ty_eqb_eq in O; subst. ok E e1 E1. apply mkBoolN_is in E as [_ ->].
    apply (typed_andor G); [now right | discriminate|]. constructor; [eauto | constructor].
  - apply andb_true_iff in O as [O O']. apply IrProofs.ty_eqb_eq in O; subst. destruct (dget (g_fns G) f) as [[ts u']|] eqn:S; [|discriminate].
    apply andb_true_iff in O' as [O O']. apply IrProofs.ty_eqb_eq in O; subst. ok E es E1. injection E as <-.
    apply t_call with (ts := ts); auto. apply all2_inv in O'. clear S. revert es E1 IH. induction O' as [|a b l l' X _ IHl]; intros es E1 IH; cbn [mapR] in E1.
    + injection E1 as <-. constructor.
    + ok E1 e1 Ea. ok E1 es' Eb. injection E1 as <-. inversion IH; subst. constructor; eauto.
  - discriminate.
Qed.

Lemma min_linked U k s r c : okstate U s -> fit U r -> link r k s c ->
  forall m t e, ok_min G k m t = true -> eval_minst (w_regs s) (w_mem s) m = Ok e ->
  exists v, eval I r e = Some v /\ mvalue I c m = Some v.
Proof.
  intros OS FIT LK. induction m as [x| |b|p|m IH|m IH|f u l IH|] using minst_ind'; intros t e O E; cbn [ok_min eval_minst] in O, E; cbn [mvalue].
  - apply andb_true_iff in O as [O _]. apply smem_in in O. destruct (ln_reg _ _ _ _ _ LK x O) as (e' & v & D & V & C). rewrite D in E. injection E as <-. eauto.
  - injection E as <-. cbn. eauto.
  - injection E as <-. cbn. eauto.
  - apply andb_true_iff in O as [O _]. apply smem_in in O. destruct (ln_mem _ _ _ _ _ LK p O) as (e' & v & D & V & C). rewrite D in E. injection E as <-. eauto.
  - apply andb_true_iff in O as [_ O]. ok E e1 E1. unfold mkNot in E. ok E q E2. injection E as <-. destruct (IH _ _ O E1) as (v & V & M).
    destruct (typed_bool I G RESP U r e1 FIT (min_typed U k s OS m _ _ O E1)) as (b & B). rewrite B in V. injection V as <-.
    rewrite M. cbn. rewrite B. cbn. eauto.
  - apply andb_true_iff in O as [_ O]. ok E e1 E1. apply mkBoolN_is in E as [_ ->]. destruct (IH _ _ O E1) as (v & V & M).
    destruct (typed_bool I G RESP U r e1 FIT (min_typed U k s OS m _ _ O E1)) as (b & B). rewrite B in V. injection V as <-.
    rewrite M. cbn. rewrite B. cbn. rewrite orb_false_r. eauto.
  - pose proof (min_typed U k s OS (MCall f u l) t e O E) as TY. destruct (typed_eval I G RESP U r e t FIT TY) as (v & V & _).
    exists v. split; auto. apply andb_true_iff in O as [_ O]. destruct (dget (g_fns G) f) as [[ts u']|] eqn:S; [|discriminate].
    apply andb_true_iff in O as [_ O]. ok E es E1. injection E as <-. cbn in V. apply all2_inv in O. clear S TY.
    assert (X : mapO (mvalue I c) l = mapO (eval I r) es); [|rewrite X; exact V].
    clear V. revert es E1 IH. induction O as [|a b l l' X _ IHl]; intros es E1 IH; cbn [mapR] in E1.
    + injection E1 as <-. reflexivity.
    + ok E1 e1 Ea. ok E1 es' Eb. injection E1 as <-. inversion IH as [|? ? IHa IHr]; subst. destruct (IHa _ _ X Ea) as (w & W & M).
      cbn. rewrite M, W. rewrite (IHl _ Eb IHr). reflexivity.
  - discriminate.
Qed.

(** ** Links *)

Lemma link_reg r k s c x e v : link r k s c -> eval I r e = Some v -> link r (know_reg k x) (set_reg s x e) (put_reg c x v).
Proof.
  intros [A B] E. constructor; cbn; auto. intros y Y. rewrite dget_dset. unfold upd. rewrite (String.eqb_sym x y).
  destruct (String.eqb_spec y x) as [->|N]; [exists e, v; auto|]. destruct Y as [Y|Y]; [congruence | auto].
Qed.
Lemma link_mem r k s c x e v : link r k s c -> eval I r e = Some v -> link r (know_mem k x) (set_mem s x e) (put_mem c x v).
Proof.
  intros [A B] E. constructor; cbn; auto. intros y Y. rewrite dget_dset. unfold upd. rewrite (String.eqb_sym x y).
  destruct (String.eqb_spec y x) as [->|N]; [exists e, v; auto|]. destruct Y as [Y|Y]; [congruence | auto].
Qed.
Lemma link_clear r k s c x e : link r k s c -> smem x (snd k) = false -> link r k (set_mem s x e) (clear_mem c x).
Proof.
  intros [A B] E. constructor; cbn; auto. intros y Y. rewrite dget_dset, (String.eqb_sym x y).
  destruct (String.eqb_spec y x) as [->|N]; [|auto]. exfalso. unfold smem in E. apply Bool.not_true_iff_false in E. apply E.
  apply existsb_exists. exists x. split; auto. apply String.eqb_refl.
Qed.
Lemma link_agree U r r' k s c : okstate U s -> (forall x t, In (x, t) U -> r x = r' x) -> link r k s c -> link r' k s c.
Proof.
  intros OS AG [A B]. constructor.
  - intros x X. destruct (A x X) as (e & v & D & E & C). exists e, v. split; auto. split; auto. rewrite <- E. symmetry.
    destruct (proj2 (ok_regs _ _ _ OS) x e D) as (t & _ & T). eapply typed_agree; eauto.
  - intros x X. destruct (B x X) as (e & v & D & E & C). exists e, v. split; auto. split; auto. rewrite <- E. symmetry.
    destruct (proj2 (ok_mem _ _ _ OS) x e D) as (t & _ & T). eapply typed_agree; eauto.
Qed.
Lemma path_agree U r r' s : okstate U s -> (forall x t, In (x, t) U -> r x = r' x) -> path r s -> path r' s.
Proof.
  intros OS AG P. unfold VcProofs2.path in *. rewrite Forall_forall in *. pose proof (ok_ass _ _ _ OS) as F. rewrite Forall_forall in F.
  intros e IN. unfold VcProofs2.tru in *. rewrite <- (P e IN). symmetry. eapply typed_agree; eauto.
Qed.

(** ** Instructions *)

Definition assigned_in (i : vinstr) : list string := match i with JLoad x _ _ | JCmp _ x _ _ _ | JCall x _ _ _ => [x] | _ => [] end.
Definition havocs_in (i : vinstr) : list string := match i with JHavoc ps => ps | _ => [] end.

Record okwalk (z : walk) : Prop := {
  zo_glob : glob_ok (z_glob z);
  zo_st : okstate (used (z_glob z)) (z_st z);
  zo_asserts : Forall (fun e => typed (used (z_glob z)) e TBool) (z_asserts z);
  zo_keys : NoDup (dkeys (z_assigns z));
  zo_assigns : forall x t, dget (z_assigns z) x = Some t -> dget (g_regs G) x = Some t /\ In x asg /\ exists e, dget (w_regs (z_st z)) x = Some e }.

Lemma okstate_reg U s x e t : okstate U s -> dget (g_regs G) x = Some t -> typed U e t -> okstate U (set_reg s x e).
Proof. intros [A B C D] E T. constructor; cbn; auto. eapply okdict_set; eauto. Qed.
Lemma okstate_mem U s x e t : okstate U s -> dget (g_cells G) x = Some t -> typed U e t -> okstate U (set_mem s x e).
Proof. intros [A B C D] E T. constructor; cbn; auto. eapply okdict_set; eauto. Qed.

Lemma okwalk_reg z x e t : okwalk z -> dget (g_regs G) x = Some t -> typed (used (z_glob z)) e t -> okwalk (w_set z (set_reg (z_st z) x e)).
Proof.
  intros [A B C D E] T TY. constructor; cbn; auto; [eapply okstate_reg; eauto|]. intros y u Y. destruct (E y u Y) as (E1 & E2 & e' & E3). split; auto. split; auto.
  rewrite dget_dset. destruct (String.eqb y x); eauto.
Qed.
Lemma okwalk_mem z x e t : okwalk z -> dget (g_cells G) x = Some t -> typed (used (z_glob z)) e t -> okwalk (w_set z (set_mem (z_st z) x e)).
Proof. intros [A B C D E] T TY. constructor; cbn; auto. eapply okstate_mem; eauto. Qed.
Lemma okwalk_assign z x e t : okwalk z -> dget (g_regs G) x = Some t -> In x asg -> typed (used (z_glob z)) e t -> okwalk (w_assign z x t e).
Proof.
  intros [A B C D E] T IN TY. constructor; cbn; auto; [eapply okstate_reg; eauto | now apply dset_nodup|]. intros y u. rewrite !dget_dset.
  destruct (String.eqb_spec y x) as [->|N]; [intros [= <-]; eauto | apply E].
Qed.

(** a cell gets a new variable *)
Lemma havoc_one g p t : glob_ok g -> In p hvs -> dget (g_cells G) p = Some t ->
  cls (S (q_num g)) (fulln (p ++ "_" ++ string_of_nat (q_num g))%string) t /\ priv (fulln (p ++ "_" ++ string_of_nat (q_num g))%string) = false.
Proof.
  intros GO P D. split; [right; right; right; exists p, (q_num g); auto|]. unfold priv. apply Bool.not_true_iff_false. intros S. apply smem_in in S.
  apply in_map_iff in S as (x & E & IN). apply full_inj in E. apply (FRESH x p (q_num g)); auto. apply in_or_app. auto.
Qed.
Lemma dset_keep A (d : dict A) k v : dget d k <> None -> forall k', dget (dset d k v) k' <> None <-> dget d k' <> None.
Proof. intros H k'. rewrite dget_dset. destruct (String.eqb_spec k' k) as [->|]; [|tauto]. split; auto. discriminate. Qed.

Lemma havoc_step g g' p t e s : glob_ok g -> okstate (used g) s -> In p hvs -> dget (g_cells G) p = Some t ->
  make_var fn io g (p ++ "_" ++ string_of_nat (q_num g))%string (IrClass t) = Ok (e, g') ->
  let g1 := {| q_vars := q_vars g'; q_num := S (q_num g') |} in
  let n := fulln (p ++ "_" ++ string_of_nat (q_num g))%string in
  glob_ok g1 /\ ext g g1 /\ e = mkVar n t /\ In (n, t) (used g1) /\ okstate (used g1) (set_mem s p e).
Proof.
  intros GO OS P D MV g1 n. destruct (havoc_one g p t GO P D) as [C PR].
  set (g0 := {| q_vars := q_vars g; q_num := S (q_num g) |}).
  assert (GO0 : glob_ok g0). { destruct GO as [F N]. constructor; cbn; auto. revert F. apply Forall_impl. intros v (x & u & -> & X). exists x, u. split; auto. eapply cls_mono; [|eauto]. lia. }
  assert (MV0 : make_var fn io g0 (p ++ "_" ++ string_of_nat (q_num g))%string (IrClass t) = Ok (e, g1)).
  { unfold make_var in *. ok MV u U1. rewrite U1. cbn [bindR]. injection MV as <- <-. reflexivity. }
  destruct (make_var_ok _ _ _ _ _ MV0 GO0 C) as (E & GO1 & X1 & N1 & IN1). cbn [ty_of_arg] in E.
  assert (XG : ext g g1) by (destruct X1 as [Y Z]; cbn in Y, Z; split; [exact Y | cbn in *; lia]).
  assert (IU : In (n, t) (used g1)) by (apply used_in; auto; split; [unfold n; rewrite <- E; exact IN1 | exact PR]).
  split; auto. split; auto. split; auto. split; auto.
  eapply okstate_mem; [eapply okstate_incl; [apply ext_used; exact XG | exact OS] | exact D |]. rewrite E. constructor. exact IU.
Qed.

Lemma havoc_all_ok : forall ps g s g' s', havoc_all fn io ps g s = Ok (g', s') -> glob_ok g -> okstate (used g) s -> incl ps hvs ->
  glob_ok g' /\ ext g g' /\ okstate (used g') s' /\ w_regs s' = w_regs s /\ w_assumes s' = w_assumes s.
Proof.
  induction ps as [|p ps IH]; intros g s g' s' H GO OS INC; cbn [havoc_all] in H.
  - injection H as <- <-. auto using ext_refl.
  - destruct (dget (w_mem s) p) as [e|] eqn:D; [|discriminate]. ok H t T. ok H q Q. destruct q as [e1 g1]. cbn [fst snd] in H.
    destruct (proj2 (ok_mem _ _ _ OS) p e D) as (t' & C & TY). rewrite (typed_type_of G _ _ _ TY) in T. injection T as <-.
    destruct (havoc_step g g1 p t' e1 s GO OS (INC p (or_introl eq_refl)) C Q) as (GO1 & X1 & -> & IU & OS1).
    destruct (IH _ _ _ _ H GO1 OS1) as (A & B & F & R & W); [intros x X; apply INC; now right|].
    split; auto. split; [eapply ext_trans; eauto|]. split; auto.
Qed.

Lemma havoc_forward : forall ps g s g' s' r k c, havoc_all fn io ps g s = Ok (g', s') -> glob_ok g -> okstate (used g) s -> incl ps hvs ->
  fit (used g') r -> link r k s c -> exists c', havocked I (g_cells G) ps c c' /\ link r (fst k, ps ++ snd k) s' c'.
Proof.
  induction ps as [|p ps IH]; intros g s g' s' r k c H GO OS INC FIT LK; cbn [havoc_all] in H.
  - injection H as <- <-. exists c. split; [constructor|]. destruct k. exact LK.
  - destruct (dget (w_mem s) p) as [e|] eqn:D; [|discriminate]. ok H t T. ok H q Q. destruct q as [e1 g1]. cbn [fst snd] in H.
    destruct (proj2 (ok_mem _ _ _ OS) p e D) as (t' & C & TY). rewrite (typed_type_of G _ _ _ TY) in T. injection T as <-.
    destruct (havoc_step g g1 p t' e1 s GO OS (INC p (or_introl eq_refl)) C Q) as (GO1 & X1 & -> & IU & OS1).
    assert (INC' : incl ps hvs) by (intros x X; apply INC; now right).
    destruct (havoc_all_ok _ _ _ _ _ H GO1 OS1 INC') as (_ & X2 & _). destruct (FIT _ _ (ext_used _ _ X2 _ IU)) as (v & V & VT).
    destruct (IH _ _ _ _ r (know_mem k p) (put_mem c p v) H GO1 OS1 INC' FIT) as (c' & HV & LK'); [apply link_mem; auto|].
    exists c'. split; [econstructor; eauto|]. revert LK'. intros [L1 L2]. constructor; cbn in *; auto. intros x X. apply L2. apply in_or_app. cbn.
    destruct X as [-> |X]; auto. apply in_app_or in X as [X|X]; auto.
Qed.

Lemma havoc_backward gf : glob_ok gf -> forall ps g s g' s' r k c c', havoc_all fn io ps g s = Ok (g', s') -> glob_ok g -> okstate (used g) s -> incl ps hvs ->
  ext g' gf -> fit (used gf) r -> link r k s c -> havocked I (g_cells G) ps c c' ->
  exists r', fit (used gf) r' /\ (forall x t, In (x, t) (used g) -> r x = r' x) /\ link r' (fst k, ps ++ snd k) s' c'.
Proof.
  intros GF. induction ps as [|p ps IH]; intros g s g' s' r k c c' H GO OS INC XF FIT LK HV; cbn [havoc_all] in H.
  - injection H as <- <-. inversion HV; subst. exists r. split; auto. split; auto. destruct k. exact LK.
  - destruct (dget (w_mem s) p) as [e|] eqn:D; [|discriminate]. ok H t T. ok H q Q. destruct q as [e1 g1]. cbn [fst snd] in H.
    destruct (proj2 (ok_mem _ _ _ OS) p e D) as (t' & C & TY). rewrite (typed_type_of G _ _ _ TY) in T. injection T as <-.
    destruct (havoc_step g g1 p t' e1 s GO OS (INC p (or_introl eq_refl)) C Q) as (GO1 & X1 & -> & IU & OS1).
    assert (INC' : incl ps hvs) by (intros x X; apply INC; now right).
    destruct (havoc_all_ok _ _ _ _ _ H GO1 OS1 INC') as (_ & X2 & _).
    inversion HV as [|? ? ? ? u v U1 U2 U3]; subst. rewrite C in U1. injection U1 as <-.
    set (n := fulln (p ++ "_" ++ string_of_nat (q_num g))%string) in *.
    assert (CN : forall x u, In (x, u) (used gf) -> x = n -> u = t').
    { intros x u X ->. apply used_in in X as [X _]; auto. assert (Y : In (n, t') (used gf)) by (apply (ext_used _ _ XF), (ext_used _ _ X2); exact IU).
      apply used_in in Y as [Y _]; auto. destruct GF as [F _]. rewrite Forall_forall in F. destruct (F _ X) as (x1 & u1 & [= <- <-] & C1), (F _ Y) as (x2 & u2 & [= <- <-] & C2).
      eapply cls_fun; eauto. }
    assert (FIT1 : fit (used gf) (upd r n v)).
    { intros x u X. unfold upd. destruct (String.eqb_spec n x) as [<-|N]; [|apply FIT; auto]. rewrite (CN n u X eq_refl). eauto. }
    assert (AG : forall x t, In (x, t) (used g) -> r x = upd r n v x).
    { intros x u X. apply used_in in X as [X _]; auto. pose proof GO as [F _]. rewrite Forall_forall in F. destruct (F _ X) as (x1 & u1 & [= <- <-] & C1).
      unfold upd. destruct (String.eqb_spec n x) as [<-|N]; auto. exfalso.
      apply (fresh_not_cls _ _ _ (q_num g) p C1 (le_n _)); auto. apply INC. now left. }
    destruct (IH _ _ _ _ (upd r n v) (know_mem k p) (put_mem c p v) c' H GO1 OS1 INC' XF FIT1) as (r' & A & B & LK'); auto.
    { apply link_mem; [eapply link_agree; eauto|]. cbn. unfold upd. now rewrite String.eqb_refl. }
    exists r'. split; auto. split.
    + intros x u X. rewrite (AG x u X). apply (B x u). apply (ext_used _ _ X1). exact X.
    + revert LK'. intros [L1 L2]. constructor; cbn in *; auto. intros x X. apply L2. apply in_or_app. cbn.
      destruct X as [-> |X]; auto. apply in_app_or in X as [X|X]; auto.
Qed.

Ltac sp H := apply andb_true_iff in H as [H ?].
Ltac tyeq := repeat match goal with
  | H : ty_eqb _ _ = true |- _ => apply IrProofs.ty_eqb_eq in H
  | H : is_ty _ _ = true |- _ => apply is_ty_some in H
  end.

Lemma mkArithN_is k es e : mkArithN k es = Ok e -> e = Node k TInt es.
Proof. destruct es as [|a es]; cbn [mkArithN]; [discriminate|]. intros H. ok H t E. ok H u E'. now injection H. Qed.
Lemma mkArith2_is k es e : mkArith2 k es = Ok e -> e = Node k TInt es.
Proof. destruct es as [|a [|b [|c es]]]; cbn [mkArith2]; try discriminate. intros H. ok H t E. ok H u E'. now injection H. Qed.
Lemma mkCmp_is k es e : mkCmp k es = Ok e -> e = Node k TBool es.
Proof. destruct es as [|a [|b [|c es]]]; cbn [mkCmp]; try discriminate. intros H. ok H t E. ok H u E'. destruct (ty_eqb t u); [|discriminate]. now injection H. Qed.
Lemma mkNot_is a e : mkNot [a] = Ok e -> e = Node KNot TBool [a].
Proof. unfold mkNot. intros H. ok H u E. now injection H. Qed.

Lemma val_eqb_sym a b : val_eqb a b = val_eqb b a.
Proof.
  destruct (val_eqb a b) eqn:E.
  - apply val_eqb_eq in E. subst. symmetry. apply val_eqb_refl.
  - symmetry. apply Bool.not_true_iff_false. intros H. apply val_eqb_eq in H. subst. rewrite val_eqb_refl in E. discriminate.
Qed.

Definition cmp_ok (k : known) (cond : string) (a b : vop) : bool :=
  if smem cond ["eq"; "ne"]%string then ok_op G k a TInt && ok_op G k b TInt || ok_op G k a TBool && ok_op G k b TBool
  else smem cond ["sgt"; "sle"; "slt"]%string && ok_op G k a TInt && ok_op G k b TInt.
Lemma cmp_cases k cond a b : cmp_ok k cond a b = true ->
  ((cond = "eq"%string \/ cond = "ne"%string) /\ exists t, ok_op G k a t = true /\ ok_op G k b t = true) \/
  ((cond = "sgt"%string \/ cond = "sle"%string \/ cond = "slt"%string) /\ ok_op G k a TInt = true /\ ok_op G k b TInt = true).
Proof.
  unfold cmp_ok. destruct (smem cond ["eq"; "ne"]%string) eqn:S.
  - intros H. left. apply smem_in in S. split; [cbn in S; intuition|]. apply orb_true_iff in H as [H|H]; apply andb_true_iff in H as [H H']; eauto.
  - intros H. right. sp H. sp H. apply smem_in in H. split; auto. cbn in H. intuition.
Qed.
Lemma cmp_typed U k cond a b l e1 e2 : cmp_ok k cond a b = true -> okdict U (g_regs G) l ->
  parse_operand a l = Ok e1 -> parse_operand b l = Ok e2 -> forall e, icmp_value cond e1 e2 = Ok e -> typed U e TBool.
Proof.
  intros C D P1 P2 e E. destruct (cmp_cases _ _ _ _ C) as [(CC & t & A & B)|(CC & A & B)];
    pose proof (op_typed U k _ _ _ _ A P1 D) as T1; pose proof (op_typed U k _ _ _ _ B P2 D) as T2.
  - destruct CC as [-> | ->]; cbn in E.
    + injection E as <-. eapply t_eq; eauto.
    + injection E as <-. constructor. eapply t_eq; eauto.
  - destruct CC as [-> |[-> | ->]]; cbn [icmp_value String.eqb Ascii.eqb Bool.eqb orb] in E; apply mkCmp_is in E; subst e; constructor; auto.
Qed.
Lemma cmp_linked U k cond a b s c r e1 e2 : cmp_ok k cond a b = true -> okstate U s -> fit U r -> link r k s c ->
  parse_operand a (w_regs s) = Ok e1 -> parse_operand b (w_regs s) = Ok e2 -> forall e, icmp_value cond e1 e2 = Ok e ->
  exists v w u, op_value c a = Some v /\ op_value c b = Some w /\ compare_values cond v w = Some u /\ eval I r e = Some (VBool u).
Proof.
  intros C OS FIT LK P1 P2 e E. destruct (cmp_cases _ _ _ _ C) as [(CC & t & A & B)|(CC & A & B)];
    destruct (op_linked r k s c _ _ _ LK A P1) as (v & V & OV), (op_linked r k s c _ _ _ LK B P2) as (w & W & OW); exists v, w.
  - destruct CC as [-> | ->]; cbn in E.
    + injection E as <-. exists (val_eqb v w). split; auto. split; auto. split; auto. cbn. rewrite V, W. cbn. now rewrite val_eqb_sym.
    + injection E as <-. exists (negb (val_eqb v w)). split; auto. split; auto. split; auto. cbn. rewrite V, W. cbn. now rewrite val_eqb_sym.
  - pose proof (op_typed U k _ _ _ _ A P1 (ok_regs _ _ _ OS)) as T1. pose proof (op_typed U k _ _ _ _ B P2 (ok_regs _ _ _ OS)) as T2.
    destruct (typed_eval I G RESP U r _ _ FIT T1) as (v' & V' & X1). destruct (typed_eval I G RESP U r _ _ FIT T2) as (w' & W' & X2).
    rewrite V in V'. injection V' as <-. rewrite W in W'. injection W' as <-. destruct (int_inv v X1) as (x & ->), (int_inv w X2) as (y & ->).
    destruct CC as [-> |[-> | ->]]; cbn [icmp_value String.eqb Ascii.eqb Bool.eqb orb] in E; apply mkCmp_is in E; subst e; cbn; rewrite V, W; cbn; eauto 10.
Qed.

Lemma call_args (l : dict expr) (os : list vop) es : mapR (fun a => match a with
                             | VName y => match dget l y with Some e => Ok e | None => Err ExKey end
                             | _ => Err ExKey
                             end) os = Ok es -> mapR (fun o => parse_operand o l) os = Ok es.
Proof.
  revert es. induction os as [|o os IH]; intros es H; cbn [mapR] in *; auto. ok H e E. ok H es' E'. injection H as <-. rewrite (IH _ E').
  destruct o; try discriminate. cbn. rewrite E. reflexivity.
Qed.
Lemma args_typed U k l os ts es : Forall2 (fun o t => ok_op G k o t = true) os ts -> okdict U (g_regs G) l ->
  mapR (fun o => parse_operand o l) os = Ok es -> typeds G U es ts.
Proof.
  intros F D. revert es. induction F as [|o t os ts O _ IH]; intros es H; cbn [mapR] in H; [injection H as <-; constructor|].
  ok H e E. ok H es' E'. injection H as <-. constructor; auto. eapply op_typed; eauto.
Qed.
Lemma args_linked r k s c os ts es : link r k s c -> Forall2 (fun o t => ok_op G k o t = true) os ts ->
  mapR (fun o => parse_operand o (w_regs s)) os = Ok es -> mapO (op_value c) os = mapO (eval I r) es.
Proof.
  intros LK F. revert es. induction F as [|o t os ts O _ IH]; intros es H; cbn [mapR] in H; [injection H as <-; reflexivity|].
  ok H e E. ok H es' E'. injection H as <-. destruct (op_linked r k s c _ _ _ LK O E) as (v & V & OV). cbn. rewrite V, OV, (IH _ E'). reflexivity.
Qed.

(** what one instruction adds to the assumptions and the assertions *)
Definition grows (z z' : walk) (i : vinstr) (l : list expr) : Prop :=
  w_assumes (z_st z') = w_assumes (z_st z) ++ l /\ (is_assume i = false -> l = []) /\ exists l', z_asserts z' = z_asserts z ++ l'.

Lemma ok_instr_inv (b : bool) (k k' : known) : (if b then Some k else None) = Some k' -> b = true /\ k' = k.
Proof. destruct b; [intros [= <-]; auto | discriminate]. Qed.

Lemma arith_is k l r e : match k with KAdd | KMul => mkArithN k [l; r] | KSub => mkArith2 k [l; r] | _ => Err ExNYI end = Ok e ->
  e = Node k TInt [l; r] /\ (k = KAdd \/ k = KSub \/ k = KMul).
Proof. destruct k; try discriminate; intros H; (apply mkArithN_is in H || apply mkArith2_is in H); auto. Qed.

Lemma vstep_ok k k' i z z' : ok_instr G k i = Some k' -> vstep fn io i z = Ok z' -> okwalk z -> incl (assigned_in i) asg -> incl (havocs_in i) hvs ->
  okwalk z' /\ ext (z_glob z) (z_glob z') /\ exists l, grows z z' i l.
Proof.
  intros O V OW IA IH. pose proof (zo_st z OW) as OS.
  destruct i as [x t|x t p|o p|op x a b|cond x t a b| |x a|x t f os|m|m|ps|]; cbn [ok_instr vstep assigned_in havocs_in] in *.
  - apply ok_instr_inv in O as [O ->]. sp O. sp O. tyeq. ok V e E. injection V as <-.
    split; [|split; [apply ext_refl | exists []; split; [cbn; now rewrite app_nil_r|]; split; auto; exists []; cbn; now rewrite app_nil_r]].
    apply okwalk_mem with (t := t); auto. apply orb_true_iff in O as [O|O]; apply IrProofs.ty_eqb_eq in O; subst t; cbn in E; injection E as <-; constructor.
  - apply ok_instr_inv in O as [O ->]. sp O. sp O. tyeq. destruct (dget (w_mem (z_st z)) p) as [e|] eqn:D; [|discriminate]. injection V as <-.
    split; [|split; [apply ext_refl | exists []; split; [cbn; now rewrite app_nil_r|]; split; auto; exists []; cbn; now rewrite app_nil_r]].
    apply okwalk_assign; auto; [apply IA; now left|]. eapply okdict_get; eauto. apply OS.
  - destruct (dget (g_cells G) p) as [t|] eqn:C; [|discriminate]. apply ok_instr_inv in O as [O ->]. ok V e E. injection V as <-.
    split; [|split; [apply ext_refl | exists []; split; [cbn; now rewrite app_nil_r|]; split; auto; exists []; cbn; now rewrite app_nil_r]].
    apply okwalk_mem with (t := t); auto. eapply op_typed; eauto. apply OS.
  - apply ok_instr_inv in O as [O ->]. sp O. sp O. sp O. tyeq. ok V e1 E1. ok V e2 E2. ok V e E. injection V as <-.
    split; [|split; [apply ext_refl | exists []; split; [cbn; now rewrite app_nil_r|]; split; auto; exists []; cbn; now rewrite app_nil_r]].
    apply okwalk_reg with (t := TInt); auto. apply arith_is in E as [-> K].
    apply t_bin; [destruct K as [-> |[-> | ->]]; reflexivity| |];
      [match goal with A : ok_op G k a TInt = true |- _ => exact (op_typed _ k _ _ _ _ A E1 (ok_regs _ _ _ OS)) end
      |match goal with A : ok_op G k b TInt = true |- _ => exact (op_typed _ k _ _ _ _ A E2 (ok_regs _ _ _ OS)) end].
  - apply ok_instr_inv in O as [O ->]. sp O. sp O. tyeq. subst t. ok V e1 E1. ok V e2 E2. ok V e E. injection V as <-.
    split; [|split; [apply ext_refl | exists []; split; [cbn; now rewrite app_nil_r|]; split; auto; exists []; cbn; now rewrite app_nil_r]].
    apply okwalk_assign; auto; [apply IA; now left|]. eapply cmp_typed; eauto. apply OS.
  - injection O as <-. injection V as <-. split; auto. split; [apply ext_refl|]. exists []. split; [now rewrite app_nil_r|]. split; auto. exists []. now rewrite app_nil_r.
  - destruct a as [y|n| |]; try discriminate. destruct (dget (g_regs G) y) as [t|] eqn:Y; [|discriminate]. apply ok_instr_inv in O as [O ->]. sp O. sp O. tyeq.
    destruct (dmem (w_regs (z_st z)) y) eqn:M.
    + ok V e E. injection V as <-.
      split; [|split; [apply ext_refl | exists []; split; [cbn; now rewrite app_nil_r|]; split; auto; exists []; cbn; now rewrite app_nil_r]].
      apply okwalk_reg with (t := t); auto. eapply op_typed; eauto. apply OS.
    + exfalso. ok V e E. cbn in E. destruct (dget (w_mem (z_st z)) y) as [e'|] eqn:D; [|discriminate].
      destruct (proj2 (ok_mem _ _ _ OS) y e' D) as (t' & C & _). unfold dmem in *. rewrite C in *. discriminate.
  - destruct (dget (g_fns G) f) as [[ts u]|] eqn:S; [|discriminate]. apply ok_instr_inv in O as [O ->]. sp O. sp O. tyeq. subst u.
    destruct (smem f model_names); [discriminate|]. destruct (smem f (w_funs (z_st z))); [|discriminate]. ok V es E. ok V e E'. injection V as <-.
    split; [|split; [apply ext_refl | exists []; split; [cbn; now rewrite app_nil_r|]; split; auto; exists []; cbn; now rewrite app_nil_r]].
    apply okwalk_assign; auto; [apply IA; now left|]. injection E' as <-. eapply t_call; eauto. apply call_args in E.
    match goal with A : all2 _ _ _ = true |- _ => apply all2_inv in A; exact (args_typed _ k _ _ _ _ A (ok_regs _ _ _ OS) E) end.
  - apply ok_instr_inv in O as [O ->]. ok V e E. injection V as <-. pose proof (min_typed _ _ _ OS _ _ _ O E) as T. destruct OW as [A B C D F].
    split; [constructor; cbn; auto; apply Forall_app; auto|]. split; [apply ext_refl|]. exists []. split; [now rewrite app_nil_r|]. split; auto. cbn. eauto.
  - apply ok_instr_inv in O as [O ->]. ok V e E. injection V as <-. pose proof (min_typed _ _ _ OS _ _ _ O E) as T. destruct OW as [A B C D F].
    split; [constructor; cbn; auto; destruct OS as [S1 S2 S3 S4]; constructor; cbn; auto; [apply Forall_app; auto | destruct (w_assumes (z_st z)); discriminate]|].
    split; [apply ext_refl|]. exists [e]. split; auto. split; [discriminate|]. exists []. cbn. now rewrite app_nil_r.
  - apply ok_instr_inv in O as [O ->]. ok V q E. injection V as <-. destruct q as [g' s']. cbn [fst snd]. destruct OW as [A B C D F].
    destruct (havoc_all_ok _ _ _ _ _ E A B IH) as (A' & X & B' & R & W). split; [|split; auto].
    + constructor; cbn; auto; [revert C; apply Forall_impl; intros e; apply typed_incl; now apply ext_used|]. intros x t Y. rewrite R. auto.
    + exists []. split; [cbn; now rewrite W, app_nil_r|]. split; auto. exists []. cbn. now rewrite app_nil_r.
  - discriminate.
Qed.

(** an instruction other than [havoc] *)
Lemma vstep_sim k k' i z z' r c l : ok_instr G k i = Some k' -> vstep fn io i z = Ok z' -> okwalk z ->
  (forall ps, i <> JHavoc ps) -> grows z z' i l ->
  fit (used (z_glob z)) r -> link r k (z_st z) c ->
  exists c', link r k' (z_st z') c' /\ (Forall (tru r) l -> exec I (g_cells G) i c c') /\
    (forall c'', exec I (g_cells G) i c c'' -> c'' = c' /\ Forall (tru r) l).
Proof.
  intros O V OW NH (GA & GN & _) FIT LK. pose proof (zo_st z OW) as OS.
  destruct i as [x t|x t p|o p|op x a b|cond x t a b| |x a|x t f os|m|m|ps|]; cbn [ok_instr vstep is_assume] in *;
    try (rewrite (GN eq_refl) in *; clear GN).
  - apply ok_instr_inv in O as [O ->]. sp O. ok V e E. injection V as <-. exists (clear_mem c x). split; [apply link_clear; auto; now apply negb_true_iff|].
    split; [constructor|]. intros c'' X. inversion X; subst. auto.
  - apply ok_instr_inv in O as [O ->]. sp O. sp O. destruct (dget (w_mem (z_st z)) p) as [e|] eqn:D; [|discriminate]. injection V as <-.
    apply smem_in in O. destruct (ln_mem _ _ _ _ _ LK p O) as (e' & v & D' & E & C). rewrite D in D'. injection D' as <-.
    exists (put_reg c x v). split; [now apply link_reg|]. split; [constructor; auto|]. intros c'' X. inversion X; subst. split; auto. congruence.
  - destruct (dget (g_cells G) p) as [t|] eqn:C; [|discriminate]. apply ok_instr_inv in O as [O ->]. ok V e E. injection V as <-.
    destruct (op_linked r k _ c _ _ _ LK O E) as (v & EV & OV). exists (put_mem c p v). split; [now apply link_mem|]. split; [constructor; auto|].
    intros c'' X. inversion X; subst. split; auto. congruence.
  - apply ok_instr_inv in O as [O ->]. sp O. sp O. sp O. ok V e1 E1. ok V e2 E2. ok V e E. injection V as <-.
    match goal with A : ok_op G k a TInt = true, B : ok_op G k b TInt = true |- _ =>
      destruct (op_linked r k _ c _ _ _ LK A E1) as (v & EV & OV); destruct (op_linked r k _ c _ _ _ LK B E2) as (w & EW & OW2);
      pose proof (op_typed _ k _ _ _ _ A E1 (ok_regs _ _ _ OS)) as T1; pose proof (op_typed _ k _ _ _ _ B E2 (ok_regs _ _ _ OS)) as T2 end.
    destruct (typed_eval I G RESP _ r _ _ FIT T1) as (v' & V' & X1). destruct (typed_eval I G RESP _ r _ _ FIT T2) as (w' & W' & X2).
    rewrite EV in V'. injection V' as <-. rewrite EW in W'. injection W' as <-. destruct (int_inv v X1) as (n & ->), (int_inv w X2) as (m & ->).
    apply arith_is in E as [-> K].
    assert (exists u, arith op (VInt n) (VInt m) = Some u /\ eval I r (Node op TInt [e1; e2]) = Some u) as (u & AU & EU).
    { destruct K as [-> |[-> | ->]]; cbn; rewrite EV, EW; cbn; eauto. }
    exists (put_reg c x u). split; [now apply link_reg|]. split; [econstructor; eauto|]. intros c'' X. inversion X; subst. split; auto. congruence.
  - apply ok_instr_inv in O as [O ->]. sp O. sp O. ok V e1 E1. ok V e2 E2. ok V e E. injection V as <-.
    destruct (cmp_linked _ k cond a b _ c r e1 e2 O OS FIT LK E1 E2 e E) as (v & w & u & OV & OW2 & CV & EV).
    exists (put_reg c x (VBool u)). split; [now apply link_reg|]. split; [econstructor; eauto|]. intros c'' X. inversion X; subst. split; auto. congruence.
  - injection O as <-. injection V as <-. exists c. split; auto. split; [constructor|]. intros c'' X. inversion X; subst. auto.
  - destruct a as [y|n| |]; try discriminate. destruct (dget (g_regs G) y) as [t|] eqn:Y; [|discriminate]. apply ok_instr_inv in O as [O ->]. sp O. sp O.
    assert (IY : In y (fst k)) by (apply smem_in; cbn in O; now apply andb_true_iff in O). destruct (ln_reg _ _ _ _ _ LK y IY) as (e' & v & D & E & C).
    unfold dmem in V at 1. rewrite D in V. cbn in V. rewrite D in V. injection V as <-. exists (put_reg c x v). split; [now apply link_reg|].
    split; [constructor; auto|]. intros c'' X. inversion X; subst. split; auto. congruence.
  - destruct (dget (g_fns G) f) as [[ts u]|] eqn:S; [|discriminate]. apply ok_instr_inv in O as [O ->]. sp O. sp O. tyeq. subst u.
    destruct (smem f model_names); [discriminate|]. destruct (smem f (w_funs (z_st z))); [|discriminate]. ok V es E. ok V e E'. injection V as <-. injection E' as <-.
    apply call_args in E. match goal with A : all2 _ _ _ = true |- _ => apply all2_inv in A; pose proof (args_linked r k _ c _ _ _ LK A E) as AL;
      pose proof (args_typed _ k _ _ _ _ A (ok_regs _ _ _ OS) E) as AT end.
    destruct (proj2 (typed_eval_both I G RESP _ r FIT) es ts AT) as (vs & EV & F). destruct (RESP f ts t vs S F) as (v & CV & _).
    assert (EC : eval I r (Node KCall t (Atom (PStr f) :: es)) = Some v) by (cbn; now rewrite EV).
    exists (put_reg c x v). split; [now apply link_reg|]. split; [econstructor; eauto; congruence|]. intros c'' X. inversion X; subst. split; auto. congruence.
  - apply ok_instr_inv in O as [O ->]. ok V e E. injection V as <-. destruct (min_linked _ k _ r c OS FIT LK m _ _ O E) as (v & EV & MV).
    destruct (typed_bool I G RESP _ r _ FIT (min_typed _ _ _ OS _ _ _ O E)) as (b & B). rewrite B in EV. injection EV as <-.
    exists c. split; auto. split; [intros _; econstructor; eauto|]. intros c'' X. inversion X; subst. auto.
  - apply ok_instr_inv in O as [O ->]. ok V e E. injection V as <-. destruct (min_linked _ k _ r c OS FIT LK m _ _ O E) as (v & EV & MV).
    cbn in GA. apply app_inv_head in GA. subst l.
    exists c. split; [destruct LK; constructor; auto|]. split.
    + intros F. inversion F; subst. constructor. unfold VcProofs2.tru in *. congruence.
    + intros c'' X. inversion X; subst. split; auto. constructor; auto. unfold VcProofs2.tru. congruence.
  - destruct (NH ps eq_refl).
  - discriminate.
Qed.

(** all values of the variables that make the path condition true come from an
    execution *)
Lemma vstep_forward k k' i z z' r c : ok_instr G k i = Some k' -> vstep fn io i z = Ok z' -> okwalk z -> incl (assigned_in i) asg -> incl (havocs_in i) hvs ->
  fit (used (z_glob z')) r -> link r k (z_st z) c -> path r (z_st z') ->
  exists c', exec I (g_cells G) i c c' /\ link r k' (z_st z') c'.
Proof.
  intros O V OW IA IH FIT LK P. destruct (vstep_ok k k' i z z' O V OW IA IH) as (OW' & X & l & GR).
  assert (FIT0 : fit (used (z_glob z)) r) by (intros x t T; apply FIT, (ext_used _ _ X), T).
  assert (D : (exists ps, i = JHavoc ps) \/ forall ps, i <> JHavoc ps) by (destruct i; try (right; discriminate); left; eauto).
  destruct D as [(ps & ->)|NH].
  - cbn [ok_instr vstep havocs_in] in *. apply ok_instr_inv in O as [O ->]. ok V q E. injection V as <-. destruct q as [g' s']. cbn [fst snd z_glob z_st] in *.
    destruct OW as [A B _ _ _]. destruct (havoc_forward _ _ _ _ _ r k c E A B IH FIT LK) as (c' & HV & LK'). exists c'. split; auto. now constructor.
  - destruct (vstep_sim k k' i z z' r c l O V OW NH GR FIT0 LK) as (c' & LK' & EX & _). exists c'. split; auto. apply EX.
    destruct GR as (GA & _). unfold VcProofs2.path in P. rewrite GA in P. apply Forall_app in P. tauto.
Qed.

(** each execution comes from values of the variables *)
Lemma vstep_backward gf k k' i z z' r c c' : glob_ok gf -> ok_instr G k i = Some k' -> vstep fn io i z = Ok z' -> okwalk z -> incl (assigned_in i) asg -> incl (havocs_in i) hvs ->
  ext (z_glob z') gf -> fit (used gf) r -> link r k (z_st z) c -> path r (z_st z) -> exec I (g_cells G) i c c' ->
  exists r', fit (used gf) r' /\ (forall x t, In (x, t) (used (z_glob z)) -> r x = r' x) /\ link r' k' (z_st z') c' /\ path r' (z_st z').
Proof.
  intros GF O V OW IA IH XF FIT LK P EX. destruct (vstep_ok k k' i z z' O V OW IA IH) as (OW' & X & l & GR).
  assert (FIT0 : fit (used (z_glob z)) r) by (intros x t T; apply FIT, (ext_used _ _ XF), (ext_used _ _ X), T).
  assert (D : (exists ps, i = JHavoc ps) \/ forall ps, i <> JHavoc ps) by (destruct i; try (right; discriminate); left; eauto).
  destruct D as [(ps & ->)|NH].
  - pose proof (zo_st z OW) as OS. cbn [ok_instr vstep havocs_in] in *. apply ok_instr_inv in O as [O ->]. ok V q E. injection V as <-. destruct q as [g' s']. cbn [fst snd z_glob z_st] in *.
    destruct OW as [A B _ _ _]. inversion EX; subst.
    match goal with H : havocked _ _ _ _ _ |- _ => destruct (havoc_backward gf GF _ _ _ _ _ r k c c' E A B IH XF FIT LK H) as (r' & F' & AG & LK') end.
    exists r'. split; auto. split; auto. split; auto. destruct (havoc_all_ok _ _ _ _ _ E A B IH) as (_ & _ & _ & _ & W).
    unfold VcProofs2.path. rewrite W. eapply path_agree; eauto.
  - destruct (vstep_sim k k' i z z' r c l O V OW NH GR FIT0 LK) as (c1 & LK' & _ & UN). destruct (UN c' EX) as [-> T]. exists r. split; auto. split; auto. split; auto.
    destruct GR as (GA & _). unfold VcProofs2.path. rewrite GA. apply Forall_app. auto.
Qed.

(** ** Blocks *)

Definition assigned_all (is : list vinstr) : list string := flat_map assigned_in is.
Definition havocs_all (is : list vinstr) : list string := flat_map havocs_in is.

Lemma incl_app_l A (a b c : list A) : incl (a ++ b) c -> incl a c /\ incl b c.
Proof. intros H. split; intros x X; apply H, in_or_app; auto. Qed.

Lemma vsteps_ok : forall is k k' z z', ok_instrs G k is = Some k' -> vsteps fn io is z = Ok z' -> okwalk z ->
  incl (assigned_all is) asg -> incl (havocs_all is) hvs ->
  okwalk z' /\ ext (z_glob z) (z_glob z') /\
  (exists l, w_assumes (z_st z') = w_assumes (z_st z) ++ l /\ (forallb (fun i => negb (is_assume i)) is = true -> l = [])) /\
  exists l', z_asserts z' = z_asserts z ++ l'.
Proof.
  induction is as [|i is IH]; intros k k' z z' O V OW IA IV; cbn [ok_instrs vsteps assigned_all havocs_all flat_map forallb] in *.
  - injection O as <-. injection V as <-. split; auto. split; [apply ext_refl|]. split; exists []; [split; auto|]; now rewrite app_nil_r.
  - destruct (ok_instr G k i) as [k1|] eqn:O1; [|discriminate]. ok V z1 V1. apply incl_app_l in IA as [IA1 IA2]. apply incl_app_l in IV as [IV1 IV2].
    destruct (vstep_ok _ _ _ _ _ O1 V1 OW IA1 IV1) as (OW1 & X1 & l1 & GA & GN & l1' & GB).
    destruct (IH _ _ _ _ O V OW1 IA2 IV2) as (OW2 & X2 & (l2 & HA & HN) & l2' & HB).
    split; auto. split; [eapply ext_trans; eauto|]. split.
    + exists (l1 ++ l2). rewrite HA, GA, app_assoc. split; auto. intros N. apply andb_true_iff in N as [N N']. rewrite (HN N'). rewrite GN; auto. now apply negb_true_iff.
    + exists (l1' ++ l2'). now rewrite HB, GB, app_assoc.
Qed.

Lemma vsteps_forward : forall is k k' z z' r c, ok_instrs G k is = Some k' -> vsteps fn io is z = Ok z' -> okwalk z ->
  incl (assigned_all is) asg -> incl (havocs_all is) hvs ->
  fit (used (z_glob z')) r -> link r k (z_st z) c -> path r (z_st z') ->
  exists c', execs I (g_cells G) is c c' /\ link r k' (z_st z') c'.
Proof.
  induction is as [|i is IH]; intros k k' z z' r c O V OW IA IV FIT LK P; cbn [ok_instrs vsteps assigned_all havocs_all flat_map] in *.
  - injection O as <-. injection V as <-. exists c. split; auto. constructor.
  - destruct (ok_instr G k i) as [k1|] eqn:O1; [|discriminate]. ok V z1 V1. apply incl_app_l in IA as [IA1 IA2]. apply incl_app_l in IV as [IV1 IV2].
    destruct (vstep_ok _ _ _ _ _ O1 V1 OW IA1 IV1) as (OW1 & X1 & _).
    destruct (vsteps_ok _ _ _ _ _ O V OW1 IA2 IV2) as (OW2 & X2 & (l2 & HA & _) & _).
    assert (P1 : path r (z_st z1)) by (unfold VcProofs2.path in *; rewrite HA in P; apply Forall_app in P; tauto).
    assert (FIT1 : fit (used (z_glob z1)) r) by (intros x t T; apply FIT, (ext_used _ _ X2), T).
    destruct (vstep_forward _ _ _ _ _ r c O1 V1 OW IA1 IV1 FIT1 LK P1) as (c1 & E1 & L1).
    destruct (IH _ _ _ _ r c1 O V OW1 IA2 IV2 FIT L1 P) as (c' & E2 & L2). exists c'. split; auto. econstructor; eauto.
Qed.

Lemma vsteps_backward gf : glob_ok gf -> forall is k k' z z' r c c', ok_instrs G k is = Some k' -> vsteps fn io is z = Ok z' -> okwalk z ->
  incl (assigned_all is) asg -> incl (havocs_all is) hvs ->
  ext (z_glob z') gf -> fit (used gf) r -> link r k (z_st z) c -> path r (z_st z) -> execs I (g_cells G) is c c' ->
  exists r', fit (used gf) r' /\ (forall x t, In (x, t) (used (z_glob z)) -> r x = r' x) /\ link r' k' (z_st z') c' /\ path r' (z_st z').
Proof.
  intros GF. induction is as [|i is IH]; intros k k' z z' r c c' O V OW IA IV XF FIT LK P EX; cbn [ok_instrs vsteps assigned_all havocs_all flat_map] in *.
  - injection O as <-. injection V as <-. inversion EX; subst. exists r. auto.
  - destruct (ok_instr G k i) as [k1|] eqn:O1; [|discriminate]. ok V z1 V1. apply incl_app_l in IA as [IA1 IA2]. apply incl_app_l in IV as [IV1 IV2].
    destruct (vstep_ok _ _ _ _ _ O1 V1 OW IA1 IV1) as (OW1 & X1 & _).
    destruct (vsteps_ok _ _ _ _ _ O V OW1 IA2 IV2) as (OW2 & X2 & _). inversion EX as [|? ? ? c1 ? E1 E2]; subst.
    destruct (vstep_backward gf _ _ _ _ _ r c c1 GF O1 V1 OW IA1 IV1 (ext_trans _ _ _ X2 XF) FIT LK P E1) as (r1 & F1 & A1 & L1 & P1).
    destruct (IH _ _ _ _ r1 c1 c' O V OW1 IA2 IV2 XF F1 L1 P1 E2) as (r2 & F2 & A2 & L2 & P2).
    exists r2. split; auto. split; auto. intros x t T. rewrite (A1 x t T). apply (A2 x t). apply (ext_used _ _ X1). exact T.
Qed.

Lemma vsteps_app is js z z' : vsteps fn io (is ++ js) z = Ok z' -> exists z1, vsteps fn io is z = Ok z1 /\ vsteps fn io js z1 = Ok z'.
Proof. revert z. induction is as [|i is IH]; intros z V; cbn [app vsteps] in *; [eauto|]. ok V z1 V1. destruct (IH _ V) as (z2 & A & B). exists z2. rewrite V1. auto. Qed.
Lemma ok_instrs_app is js k k' : ok_instrs G k (is ++ js) = Some k' -> exists k1, ok_instrs G k is = Some k1 /\ ok_instrs G k1 js = Some k'.
Proof.
  revert k. induction is as [|i is IH]; intros k V; cbn [app ok_instrs] in *; [eauto|]. destruct (ok_instr G k i) as [k1|]; [|discriminate].
  destruct (IH _ V) as (k2 & A & B). exists k2. auto.
Qed.

(** where assertions come from *)
Lemma vstep_asserts i z z' : vstep fn io i z = Ok z' -> z_asserts z' = z_asserts z \/
  exists m e, i = JAssert m /\ eval_minst (w_regs (z_st z)) (w_mem (z_st z)) m = Ok e /\ z_asserts z' = z_asserts z ++ [e].
Proof.
  destruct i; cbn [vstep]; intros V;
    repeat match type of V with
           | Ok _ = Ok _ => injection V as <-
           | Err _ = Ok _ => discriminate V
           | bindR _ _ = Ok _ => let q := fresh "q" in let E := fresh "E" in ok V q E
           | match ?x with _ => _ end = Ok _ => let E := fresh "E" in destruct x eqn:E
           | (if ?x then _ else _) = Ok _ => let E := fresh "E" in destruct x eqn:E
           end; try (left; reflexivity); try discriminate. right. eexists _, _. split; [reflexivity|]. split; [eassumption | reflexivity].
Qed.
Lemma vsteps_asserts : forall is z z' e, vsteps fn io is z = Ok z' -> In e (z_asserts z') -> In e (z_asserts z) \/
  exists pre m post z1, is = pre ++ JAssert m :: post /\ vsteps fn io pre z = Ok z1 /\ eval_minst (w_regs (z_st z1)) (w_mem (z_st z1)) m = Ok e.
Proof.
  induction is as [|i is IH]; intros z z' e V IN; cbn [vsteps] in V.
  - injection V as <-. auto.
  - ok V z1 V1. destruct (IH _ _ _ V IN) as [IN1|(pre & m & post & z2 & -> & V2 & E)].
    + destruct (vstep_asserts _ _ _ V1) as [A|(m & e1 & -> & E & A)]; rewrite A in IN1; auto. apply in_app_or in IN1 as [IN1|[<-|[]]]; auto.
      right. exists [], m, is, z. auto.
    + right. exists (i :: pre), m, post, z2. cbn. rewrite V1. auto.
Qed.
(** the registers that are assigned *)
Lemma vstep_keys i z z' x : vstep fn io i z = Ok z' -> dget (z_assigns z') x <> None -> dget (z_assigns z) x <> None \/ In x (assigned_in i).
Proof.
  destruct i; cbn [vstep assigned_in]; intros V;
    repeat match type of V with
           | Ok _ = Ok _ => injection V as <-
           | Err _ = Ok _ => discriminate V
           | bindR _ _ = Ok _ => let q := fresh "q" in let E := fresh "E" in ok V q E
           | match ?x with _ => _ end = Ok _ => let E := fresh "E" in destruct x eqn:E
           | (if ?x then _ else _) = Ok _ => let E := fresh "E" in destruct x eqn:E
           end; try discriminate; auto; cbn [w_assign z_assigns]; rewrite dget_dset; destruct (String.eqb_spec x x0) as [->|]; auto; right; now left.
Qed.
Lemma vsteps_keys : forall is z z' x, vsteps fn io is z = Ok z' -> dget (z_assigns z') x <> None -> dget (z_assigns z) x <> None \/ In x (assigned_all is).
Proof.
  induction is as [|i is IH]; intros z z' x V D; cbn [vsteps assigned_all flat_map] in *.
  - injection V as <-. auto.
  - ok V z1 V1. destruct (IH _ _ _ V D) as [D1|IN]; [|right; apply in_or_app; auto]. destruct (vstep_keys _ _ _ _ V1 D1); auto. right. apply in_or_app. auto.
Qed.
End Walk.
