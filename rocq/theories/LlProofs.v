(** Proofs about the LLVM frontend, part 1: instructions. *)

From Coq Require Import String List ZArith Bool Lia.
From Verif Require Import Ast Semantics Dict UtilModel UtilProofs ObjModel PyModel PySem PyProofs PyProofs2 PyProofs3 PyProofs4 LlModel LlSem.
From Verif Require IrProofs IrProofs3 IrProofs6.
Import ListNotations.
Local Open Scope Z_scope.
Local Open Scope string_scope.
Local Open Scope list_scope.

Lemma name_eqb_spec a b : name_eqb a b = true <-> a = b.
Proof.
  destruct a as [p x], b as [q y]. unfold name_eqb. cbn [fst snd]. rewrite andb_true_iff, eqb_true_iff, String.eqb_eq.
  split; [intros [-> ->]; auto | intros [= -> ->]; auto].
Qed.
Lemma nmem_in n l : nmem n l = true <-> In n l.
Proof.
  unfold nmem. rewrite existsb_exists. split.
  - intros (m & IN & E). apply name_eqb_spec in E. now subst.
  - intros IN. exists n. split; auto. now apply name_eqb_spec.
Qed.
Lemma name_dec (a b : name) : {a = b} + {a <> b}.
Proof. destruct (name_eqb a b) eqn:E; [left; now apply name_eqb_spec | right; intros H; apply name_eqb_spec in H; congruence]. Qed.
Lemma is_ty_eq t t' : is_ty t t' = true -> t = Some t'.
Proof. destruct t; cbn; [intros H; apply ty_eqb_eq in H; now subst | discriminate]. Qed.

(** *** Literals.  Python takes [True] for 1; expressions that are equal in Python are
    the same if literals are Boolean where Booleans are expected ([s = true]) and integers
    elsewhere. *)
Fixpoint pl (s : bool) (e : expr) : bool :=
  match e with
  | Atom _ => true
  | Node k t args =>
      match k with
      | KLit => match s, t, args with
                | false, TInt, [Atom (PInt _)] => true
                | true, TBool, [Atom (PBool _)] => true
                | _, _, _ => false
                end
      | KAnd | KOr | KNot | KImplies => forallb (pl true) args
      | KIte => match args with [c; a; b] => pl true c && pl s a && pl s b | _ => false end
      | _ => forallb (pl false) args
      end
  end.
Lemma pl_agree e1 : forall s e2, pl s e1 = true -> pl s e2 = true -> expr_eqb e1 e2 = true -> IrProofs3.lits_agree e1 e2.
Proof.
  induction e1 as [a|k t args IH] using expr_ind'; intros s [b|k2 t2 args2] P1 P2 E; simpl in E; try discriminate.
  - simpl. exact Logic.I.
  - apply andb_true_iff in E as [K E]. apply kind_eqb_eq in K. subst k2.
    assert (A : forall q, forallb (pl q) args = true -> forallb (pl q) args2 = true -> IrProofs3.all2 IrProofs3.lits_agree args args2).
    { intros q Q1 Q2. clear - IH E Q1 Q2. revert args2 E Q2. induction args as [|a args IHa]; intros [|b args2] E Q2; simpl in *; try discriminate; auto.
      inversion IH; subst. apply andb_true_iff in E as [E1 E2]. apply andb_true_iff in Q1 as [? ?]. apply andb_true_iff in Q2 as [? ?].
      split; eauto. }
    destruct k; try (cbn [pl] in P1, P2; simpl; eapply A; eassumption); cbn [pl] in P1, P2.
    + destruct s, t; try discriminate; destruct args as [|[[]|] []]; try discriminate; destruct t2; try discriminate; destruct args2 as [|[[]|] []]; try discriminate; simpl; auto.
      simpl in E. rewrite andb_true_r in E. apply Z.eqb_eq in E. subst. auto.
    + destruct args as [|c1 [|a1 [|b1 []]]]; try discriminate. destruct args2 as [|c2 [|a2 [|b2 []]]]; try discriminate.
      apply andb_true_iff in P1 as [P1 P1b]. apply andb_true_iff in P1 as [P1c P1a]. apply andb_true_iff in P2 as [P2 P2b]. apply andb_true_iff in P2 as [P2c P2a].
      simpl in E. apply andb_true_iff in E as [Ec E]. apply andb_true_iff in E as [Ea E]. rewrite andb_true_r in E.
      inversion IH as [|? ? IHc IH1]; subst. inversion IH1 as [|? ? IHa IH2]; subst. inversion IH2 as [|? ? IHb _]; subst.
      simpl. repeat split; eauto.
Qed.

(** [e]'s variables are in [S], and its literals are integers (Booleans) *)
Definition good (S : list string) (e : expr) : Prop := pl false e = true /\ incl (fv e) S.
Definition goodb (S : list string) (e : expr) : Prop := pl true e = true /\ incl (fv e) S.
(** the expression for a value of type [t]; with [l] it may be a Boolean literal *)
Definition gv (l : bool) (t : ty) (S : list string) (e : expr) : Prop :=
  incl (fv e) S /\ (l = false -> pl false e = true) /\ (t = TBool -> pl true e = true).
Lemma good_weaken S S' e : incl S S' -> good S e -> good S' e.
Proof. intros H [P V]. split; auto. eapply incl_tran; eauto. Qed.
Lemma goodb_weaken S S' e : incl S S' -> goodb S e -> goodb S' e.
Proof. intros H [P V]. split; auto. eapply incl_tran; eauto. Qed.
Lemma gv_weaken l t S S' e : incl S S' -> gv l t S e -> gv l t S' e.
Proof. intros H [V P]. split; auto. eapply incl_tran; eauto. Qed.
Lemma gv_good t S e : gv false t S e -> good S e.
Proof. intros (V & P & _). split; auto. Qed.
Lemma gv_goodb l S e : gv l TBool S e -> goodb S e.
Proof. intros (V & _ & P). split; auto. Qed.
Lemma gv_lit l t S e : gv false t S e -> gv l t S e.
Proof. intros (V & P & Q). split; auto. Qed.
Lemma gv_int l t S e : t <> TBool -> good S e -> gv l t S e.
Proof. intros N [P V]. split; auto. Qed.
Lemma gv2 l S k t u a b : In k [KAdd; KSub; KMul; KDiv; KMod; KEq; KLt; KLe; KGt; KGe] -> good S a -> good S b -> gv l u S (Node k t [a; b]).
Proof.
  intros IN [Pa Va] [Pb Vb]. split; [|split; intros _].
  - assert (fv (Node k t [a; b]) = fv a ++ fv b ++ []) as ->.
    { simpl in IN. decompose [or] IN; subst; try tauto; reflexivity. }
    rewrite app_nil_r. now apply incl_app.
  - simpl in IN. decompose [or] IN; subst; try tauto; simpl; now rewrite Pa, Pb.
  - simpl in IN. decompose [or] IN; subst; try tauto; simpl; now rewrite Pa, Pb.
Qed.
Lemma gv_not l u S c : goodb S c -> gv l u S (Node KNot TBool [c]).
Proof. intros [P V]. split; [simpl; now rewrite app_nil_r|]. split; intros _; simpl; now rewrite P. Qed.
Lemma gv_call l u S f t args : Forall (good S) args -> gv l u S (Node KCall t (Atom (PStr f) :: args)).
Proof.
  intros F. assert (P : forallb (pl false) args = true). { apply forallb_forall. intros x IN. rewrite Forall_forall in F. apply (F x IN). }
  split; [|split; intros _; simpl; exact P].
  simpl. intros y IN. apply in_flat_map in IN as (x & INx & INy). rewrite Forall_forall in F. now apply (F x INx).
Qed.
Lemma gv_var l u S t x : In x S -> gv l u S (mkVar x t).
Proof. intros IN. split; [|split; intros _; reflexivity]. intros y [<-|[]]. exact IN. Qed.
Lemma objects_goodb k S os a : In k [KAnd; KOr] -> (e <- nary_exprs k (os_init os) ;; mkBoolObj e) = Ok a ->
  Forall (goodb S) os -> goodb S a.
Proof.
  intros K N F. apply objects_split in N. assert (F' : Forall (goodb S) (os_init os)).
  { rewrite Forall_forall in *. intros x IN. apply F. now apply os_init_in. }
  destruct (os_init os) as [|e es]; [discriminate|]. cbn [nary_exprs] in N. inversion F' as [|? ? Ge Fs]; subst. clear F'.
  revert e Ge N. induction es as [|x es IH]; intros e Ge N; cbn [fold_exprs] in N.
  - injection N as <-. auto.
  - destruct (mkBoolN k [e; x]) as [n|] eqn:Nn; [|discriminate]. cbn [bindR] in N.
    assert (n = Node k TBool [e; x]).
    { unfold mkBoolN in Nn. destruct (check_types TBool [e; x]); cbn [bindR] in Nn; congruence. }
    subst n. inversion Fs as [|? ? Gx Fs']; subst. eapply IH; [exact Fs' | | exact N]. destruct Ge as [Pe Ve], Gx as [Px Vx].
    split; destruct K as [<-|[<-|[]]]; simpl; rewrite ?Pe, ?Px, ?app_nil_r; auto; apply incl_app; auto.
Qed.
Lemma objects_valueb I r k os a bs : In k [KAnd; KOr] -> (e <- nary_exprs k (os_init os) ;; mkBoolObj e) = Ok a ->
  Forall (fun e => pl true e = true) os -> mapO (eval I r) os = Some (map VBool bs) ->
  eval I r a = Some (VBool (match k with KAnd => forallb (fun x => x) bs | _ => existsb (fun x => x) bs end)).
Proof.
  intros K N F M. apply objects_split in N. destruct (os_init_spec os) as (D & Sb & C).
  assert (SUB : forall x, In x (os_init os) -> In x os) by (intros x; now apply sublist_in).
  destruct (mapO_sub I r os bs (os_init os) M SUB) as (bs' & M').
  rewrite (nary_eval I r k (os_init os) a bs' K N M').
  destruct (forallb_incl bs bs') as [E1 E2].
  - intros b IN. destruct (mapO_bools_in I r _ _ M' b IN) as (x & INx & Ex).
    destruct (mapO_bools I r os bs M x (SUB x INx)) as (b' & Eb & INb). congruence.
  - intros b IN. destruct (mapO_bools_in I r _ _ M b IN) as (x & INx & Ex).
    destruct (proj1 (C x)) as (y & INy & Ey); [exists x; split; auto; apply IrProofs.expr_eqb_refl|].
    destruct (mapO_bools I r _ bs' M' y INy) as (b' & Eb & INb).
    rewrite Forall_forall in F.
    rewrite (IrProofs3.equal_same_value I y x r Ey (pl_agree y true x (F y (SUB y INy)) (F x INx) Ey)) in Eb. congruence.
  - now rewrite E1, E2.
Qed.
Lemma and_trueb I r os a : and_objects os = Ok a -> Forall (fun e => pl true e = true) os ->
  Forall (fun e => eval I r e = Some (VBool true)) os -> eval I r a = Some (VBool true).
Proof.
  intros N P F. destruct (mapO_true I r _ F) as (bs & M & A).
  rewrite (objects_valueb I r KAnd _ _ _ (or_introl eq_refl) N P M). now rewrite A.
Qed.

(** registers of a symbolic state and of a store *)
Definition sget (s : lstate) (n : name) : option obj := dget (if fst n then ptrs s else prims s) (snd n).
Definition sset (s : lstate) (n : name) (o : obj) : lstate := if fst n then write_ptr s (snd n) o else write_prim s (snd n) o.
Definition cget (s : lstore) (n : name) : option val := if fst n then sm s (snd n) else sp s (snd n).

Lemma sget_same s n o : sget (sset s n o) n = Some o.
Proof. destruct n as [[] x]; unfold sget, sset; cbn; rewrite dget_dset; now rewrite String.eqb_refl. Qed.
Lemma sget_other s n o m : m <> n -> sget (sset s n o) m = sget s m.
Proof.
  intros H. destruct n as [[] x], m as [[] y]; unfold sget, sset; cbn; auto; rewrite dget_dset;
    destruct (String.eqb_spec y x); auto; subst; congruence.
Qed.

(** the symbolic state [s'] is [s] with [n] set to [o] *)
Record sets (s : lstate) (n : name) (o : obj) (s' : lstate) : Prop := {
  se_same : sget s' n = Some o;
  se_other : forall m, m <> n -> sget s' m = sget s m;
  se_pre : l_precond s' = l_precond s;
  se_ass : l_asserts s' = l_asserts s;
  se_nd1 : NoDup (dkeys (prims s)) -> NoDup (dkeys (prims s'));
  se_nd2 : NoDup (dkeys (ptrs s)) -> NoDup (dkeys (ptrs s')) }.
Lemma sets_sset s n o : sets s n o (sset s n o).
Proof.
  constructor; [apply sget_same | intros m H; now apply sget_other |..]; destruct n as [[] x]; cbn; auto; intros; try (apply dset_nodup); auto.
Qed.
Lemma sets_twice s n o m l : m <> n -> sget s m = Some l -> sets s n o (sset (sset s n o) m l).
Proof.
  intros NE E. constructor.
  - rewrite sget_other by congruence. apply sget_same.
  - intros k NK. destruct (name_dec k m); [subst; now rewrite sget_same|]. rewrite !sget_other by auto. reflexivity.
  - destruct n as [[] x], m as [[] y]; reflexivity.
  - destruct n as [[] x], m as [[] y]; reflexivity.
  - destruct n as [[] x], m as [[] y]; cbn; auto; intros; repeat (apply dset_nodup); auto.
  - destruct n as [[] x], m as [[] y]; cbn; auto; intros; repeat (apply dset_nodup); auto.
Qed.

Lemma st_set_same v b s : st (set_st v b s) b = s.
Proof. unfold st, set_st; cbn. rewrite dget_dset, String.eqb_refl. reflexivity. Qed.
Lemma st_set_other v b s c : c <> b -> st (set_st v b s) c = st v c.
Proof. intros H. unfold st, set_st; cbn. rewrite dget_dset. destruct (String.eqb_spec c b); [congruence | reflexivity]. Qed.

(** only the state of block [b] differs *)
Record same_but (b : string) (v v' : visitor) : Prop := {
  sb_st : forall c, c <> b -> st v' c = st v c;
  sb_post : v_post v' = v_post v;
  sb_preds : v_preds v' = v_preds v;
  sb_done : v_done v' = v_done v }.
Lemma same_refl b v : same_but b v v.
Proof. constructor; auto. Qed.
Lemma same_trans b v1 v2 v3 : same_but b v1 v2 -> same_but b v2 v3 -> same_but b v1 v3.
Proof. intros [A1 A2 A3 A4] [B1 B2 B3 B4]. constructor; try congruence. intros c N. rewrite B1, A1; auto. Qed.
Lemma same_set_st b v s : same_but b v (set_st v b s).
Proof. constructor; auto. intros c H. now apply st_set_other. Qed.

Section Instr.
Variables (I : interp) (U : string -> list val -> option val) (an : annot) (uninterp : list string).
Hypothesis LIB : llibrary I.
Hypothesis UNI : forall f vs, smem f (uninterp ++ maths) = true -> i_call I f vs = U f vs /\ exists z, U f vs = Some (VInt z).
(** the name of the cell for the result *)
Variable sn : option string.
Hypothesis SRT : forall x, sn = Some x -> reg_ty an (true, x) = Some (TList TInt).
Definition G : dict ty := a_prim an ++ a_ptr an.
Hypothesis DISJ : forallb (fun x => negb (dmem (a_ptr an) x)) (dkeys (a_prim an)) = true.

Lemma disj_names x t u : reg_ty an (false, x) = Some t -> reg_ty an (true, x) = Some u -> False.
Proof.
  unfold reg_ty. intros A B. destruct (junk an (true, x)); [discriminate|]. cbn in A, B. rewrite forallb_forall in DISJ. specialize (DISJ x (dget_key _ _ _ _ A)).
  unfold dmem in DISJ. rewrite B in DISJ. discriminate.
Qed.
Lemma reg_G n t : reg_ty an n = Some t -> dget G (snd n) = Some t.
Proof.
  assert (APP : forall (a b : dict ty) x, dget (a ++ b) x = match dget a x with Some t => Some t | None => dget b x end).
  { induction a as [|[y w] a IH]; intros b x; cbn; auto. destruct (x =? y); auto. }
  destruct n as [p x]. intros R. unfold G. rewrite APP. cbn [snd]. destruct (dget (a_prim an) x) as [u|] eqn:E.
  - destruct p; [exfalso; eapply (disj_names x); [exact E | exact R]|]. unfold reg_ty in R. cbn in R. congruence.
  - unfold reg_ty in R. destruct (junk an (p, x)); [discriminate|]. destruct p; cbn in R; congruence.
Qed.
Lemma label_reg n t : reg_ty an n = Some t -> label_ok an n t = true.
Proof. intros R. unfold label_ok. now rewrite R, IrProofs.ty_eqb_refl. Qed.
Lemma label_exact n u : label_ok an n u = true -> exists t, reg_ty an n = Some t /\
  (u = t \/ (loose an n = true /\ t = TList TInt /\ u = TList (TList TInt))).
Proof.
  unfold label_ok. destruct (reg_ty an n) as [t|]; [|discriminate]. intros H. exists t. split; auto.
  apply orb_true_iff in H as [H|H]; [left; apply ty_eqb_eq in H; auto|]. right.
  apply andb_true_iff in H as [H H3]. apply andb_true_iff in H as [H1 H2]. apply ty_eqb_eq in H2, H3. auto.
Qed.
Lemma label_prim x u : label_ok an (false, x) u = true -> reg_ty an (false, x) = Some u.
Proof. intros H. destruct (label_exact _ _ H) as (t & R & [->|(L & _)]); [auto | discriminate L]. Qed.

(** an expression that always has a value of type [t] *)
Record okvall (l : bool) (S : list string) (t : ty) (o : obj) : Prop := {
  ov_ty : o_ty o = t;
  ov_good : gv l t S (o_src o);
  ov_type : type_of (o_src o) = Ok t;
  ov_val : forall r, fits G r -> exists v, eval I r (o_src o) = Some v /\ of_type t v = true }.
Notation okval := (okvall false).
(** the object of a register: its variables, its type as the frontend sees it, and its
    value *)
Definition xs (S : list string) : list string := match sn with Some x => x :: S | None => S end.
Definition ns (S : list string) (n : name) : list string := if junk an n || (fst n && is_sret sn (snd n)) then xs S else S.
Definition Pn (n : name) (v : val) : bool := match reg_ty an n with Some t => of_type t v | None => true end.
Definition gobj (S : list string) (n : name) (e : expr) : Prop :=
  incl (fv e) (ns S n) /\ (junk an n || lit an n = false -> pl false e = true) /\ (reg_ty an n = Some TBool -> pl true e = true).
Record okobj (S : list string) (n : name) (o : obj) : Prop := {
  oo_good : gobj S n (o_src o);
  oo_type : type_of (o_src o) = Ok (o_ty o);
  oo_lab : junk an n || label_ok an n (o_ty o) = true;
  oo_val : forall r, fits G r -> exists v, eval I r (o_src o) = Some v /\ Pn n v = true }.
Record okcond (S : list string) (e : expr) : Prop := {
  oc_good : goodb S e;
  oc_val : forall r, fits G r -> exists b, eval I r e = Some (VBool b) }.
Record okst (S : list string) (s : lstate) : Prop := {
  os_nd1 : NoDup (dkeys (prims s));
  os_nd2 : NoDup (dkeys (ptrs s));
  os_obj : forall n o, sget s n = Some o -> okobj S n o;
  os_pre : Forall (okcond S) (l_precond s);
  os_ass : Forall (goodb (xs S)) (l_asserts s) }.
Definition typesok (v : visitor) : Prop :=
  (forall x t, dget (v_prim_types v) x = Some t -> label_ok an (false, x) t = true) /\
  (forall x t, dget (v_ptr_types v) x = Some t -> junk an (true, x) || label_ok an (true, x) t = true).

Lemma xs_incl S : incl S (xs S).
Proof. clear SRT DISJ UNI LIB. intros y Y. unfold xs. destruct sn; [now right | auto]. Qed.
Lemma xs_weaken S S' : incl S S' -> incl (xs S) (xs S').
Proof. clear SRT DISJ UNI LIB. intros H y. unfold xs. destruct sn; [intros [->|Y]; [now left | right; auto] | auto]. Qed.
Lemma ns_incl S n : incl S (ns S n).
Proof. clear SRT DISJ UNI LIB. unfold ns. destruct (junk an n || _); [apply xs_incl | apply incl_refl]. Qed.
Lemma ns_xs S n : incl (ns S n) (xs S).
Proof. clear SRT DISJ UNI LIB. unfold ns. destruct (junk an n || _); [apply incl_refl | apply xs_incl]. Qed.
Lemma ns_weaken S S' n : incl S S' -> incl (ns S n) (ns S' n).
Proof. clear SRT DISJ UNI LIB. intros H. unfold ns. destruct (junk an n || _); [now apply xs_weaken | auto]. Qed.
Lemma reg_junk n t : reg_ty an n = Some t -> junk an n = false.
Proof. clear SRT DISJ UNI LIB. unfold reg_ty. destruct (junk an n); [discriminate | auto]. Qed.
Lemma okvall_obj l S n t o : (l = true -> lit an n = true) -> reg_ty an n = Some t -> okvall l S t o -> okobj S n o.
Proof.
  intros LL R [A B C D]. constructor.
  - destruct B as (B1 & B2 & B3). split; [eapply incl_tran; [exact B1 | apply ns_incl]|]. split; [|intros Q; apply B3; congruence].
    intros Q. apply orb_false_iff in Q as [_ Q]. apply B2. destruct l; auto. now rewrite (LL eq_refl) in Q.
  - congruence.
  - rewrite A, (label_reg _ _ R). apply orb_true_r.
  - intros r F. destruct (D r F) as (v & E & T). exists v. unfold Pn. now rewrite R.
Qed.
Lemma okval_obj S n t o : reg_ty an n = Some t -> okval S t o -> okobj S n o.
Proof. apply okvall_obj. discriminate. Qed.
Lemma okval_lit l S t o : okval S t o -> okvall l S t o.
Proof. intros [A B C D]. constructor; auto. now apply gv_lit. Qed.
Lemma okobj_weaken S S' n o : incl S S' -> okobj S n o -> okobj S' n o.
Proof. intros H [A B C D]. constructor; auto. destruct A as [A1 A2]. split; auto. eapply incl_tran; [exact A1 | apply ns_weaken, H]. Qed.
Lemma okobj_label S n o : junk an n = false -> okobj S n o -> label_ok an n (o_ty o) = true.
Proof. intros J [_ _ L _]. now rewrite J in L. Qed.
Lemma okobj_reg S n o : junk an n = false -> okobj S n o -> exists t, reg_ty an n = Some t.
Proof. intros J O. destruct (label_exact _ _ (okobj_label _ _ _ J O)) as (t & R & _). eauto. Qed.
Lemma okobj_prim S x o : okobj S (false, x) o -> exists t, reg_ty an (false, x) = Some t.
Proof. now apply okobj_reg. Qed.
Lemma okobj_kind S x o o' : okobj S (false, x) o -> okobj S (true, x) o' -> junk an (true, x) = true.
Proof.
  intros A B. destruct (junk an (true, x)) eqn:J; auto. destruct (okobj_prim _ _ _ A) as [t T]. destruct (okobj_reg _ _ _ J B) as [u U'].
  exfalso. eapply disj_names; eauto.
Qed.
(** a register that is taken for what it is *)
Definition nclear (n : name) : bool := negb (loose an n) && negb (fst n && is_sret sn (snd n)).
Lemma okobj_val S n t o : reg_ty an n = Some t -> nclear n = true \/ t <> TList TInt -> okobj S n o -> okvall (lit an n) S t o.
Proof.
  intros R C [A B L D]. pose proof (reg_junk _ _ R) as J. rewrite J in L. cbn in L.
  assert (NC : o_ty o = t /\ ns S n = S).
  { destruct (label_exact _ _ L) as (t' & R' & Q). rewrite R in R'. injection R' as <-. unfold ns. rewrite J. cbn [orb].
    destruct C as [C|C].
    - unfold nclear in C. apply andb_true_iff in C as [C1 C2]. apply negb_true_iff in C1, C2. rewrite C2. split; auto.
      destruct Q as [Q|(Q & _)]; congruence.
    - destruct Q as [Q|(_ & Q & _)]; [|congruence]. split; auto. destruct n as [[] x]; cbn; auto. cbn in *. unfold is_sret.
      destruct sn as [y|]; auto. destruct (String.eqb_spec x y) as [->|]; auto. rewrite (SRT y eq_refl) in R. congruence. }
  destruct NC as [E1 E2]. destruct A as (A1 & A2 & A3). rewrite E2 in A1. rewrite J in A2. constructor; auto; [split; auto; split; [exact A2 | intros QQ; apply A3; congruence] | congruence|].
  intros r F. destruct (D r F) as (v & E & T). exists v. split; auto. unfold Pn in T. now rewrite R in T.
Qed.

Lemma okval_weaken l S S' t o : incl S S' -> okvall l S t o -> okvall l S' t o.
Proof. intros H [A B C D]. constructor; auto. eapply gv_weaken; eauto. Qed.
Lemma okst_weaken S S' s : incl S S' -> okst S s -> okst S' s.
Proof.
  intros H [A B C D E]. constructor; auto.
  - intros n o Q. eapply okobj_weaken; eauto.
  - eapply Forall_impl; [|exact D]. intros e [X Y]. constructor; auto. eapply goodb_weaken; eauto.
  - eapply Forall_impl; [|exact E]. intros e. apply goodb_weaken, xs_weaken, H.
Qed.
Lemma okst_sets S s n o s' : okst S s -> sets s n o s' -> okobj S n o -> okst S s'.
Proof.
  intros [A B C D E] [F H K L M N] O. constructor; auto; try congruence.
  intros m w Q. destruct (name_dec m n); [subst; congruence|]. rewrite H in Q; auto.
Qed.

(** the registers in [X] have their values *)
Definition Lk (X : list name) (s : lstate) (r : env) (c : lstore) : Prop :=
  forall n, In n X -> exists o v, sget s n = Some o /\ cget c n = Some v /\ eval I r (o_src o) = Some v.
Lemma lk_sets X s r c n o s' c' w : Lk X s r c -> sets s n o s' -> eval I r (o_src o) = Some w ->
  cget c' n = Some w -> (forall m, m <> n -> cget c' m = cget c m) -> Lk (n :: X) s' r c'.
Proof.
  intros L SE E C1 C2 m [<-|IN].
  - exists o, w. split; auto. apply (se_same _ _ _ _ SE).
  - destruct (name_dec m n) as [->|N]; [exists o, w; split; auto; apply (se_same _ _ _ _ SE)|].
    destruct (L m IN) as (o' & v' & A & B & D). exists o', v'. rewrite (se_other _ _ _ _ SE m N), C2; auto.
Qed.
Lemma cget_putr c p x v : cget (putr c p x v) (p, x) = Some v.
Proof. destruct p; unfold cget, putr, putm, putp, put; cbn; now rewrite String.eqb_refl. Qed.
Lemma cget_putr_other c p x v m : m <> (p, x) -> cget (putr c p x v) m = cget c m.
Proof.
  intros N. destruct p, m as [[] y]; unfold cget, putr, putm, putp, put; cbn; auto; unfold put;
    destruct (String.eqb_spec x y); auto; subst; congruence.
Qed.

(** *** operands *)

Lemma operand_sget s p x o : read_or_load_operand s (OName x p) = Ok o -> sget s (p, x) = Some o.
Proof.
  intros R. destruct p; unfold read_or_load_operand, sget in *; cbn in R |- *; [destruct (dget (ptrs s) x) | destruct (dget (prims s) x)]; congruence.
Qed.
Lemma operand_ev S X s op t o : okst S s -> opty an X op = Some t -> read_or_load_operand s op = Ok o ->
  forall r c v, Lk X s r c -> getv c op = Some v -> eval I r (o_src o) = Some v.
Proof.
  intros OS T R. destruct op as [x p|z| |]; cbn [opty] in T; try (cbn in R; injection R as <-; intros r c v _ E; cbn in E |- *; congruence).
  destruct (nmem (p, x) X) eqn:M; [|discriminate]. apply nmem_in in M. pose proof (operand_sget _ _ _ _ R) as Q.
  intros r c v L Gv. destruct (L _ M) as (o' & v' & A & B & C). destruct p; unfold cget in B; cbn in B, Gv; congruence.
Qed.
Lemma operand_good S s op o : okst S s -> read_or_load_operand s op = Ok o ->
  incl (fv (o_src o)) (xs S) /\ type_of (o_src o) = Ok (o_ty o) /\ forall r, fits G r -> exists v, eval I r (o_src o) = Some v.
Proof.
  intros OS R. destruct op as [x p|z| |].
  - destruct (os_obj _ _ OS _ _ (operand_sget _ _ _ _ R)) as [A B _ D]. split; [|split]; auto; [eapply incl_tran; [apply A | apply ns_xs]|].
    intros r F. destruct (D r F) as (v & E & _). eauto.
  - cbn in R. injection R as <-. split; [intros y []|]. split; [reflexivity|]. intros r _. eexists. reflexivity.
  - cbn in R. injection R as <-. split; [intros y []|]. split; [reflexivity|]. intros r _. eexists. reflexivity.
  - cbn in R. injection R as <-. split; [intros y []|]. split; [reflexivity|]. intros r _. eexists. reflexivity.
Qed.
Lemma operand_ok' S X s op t o : okst S s -> clear an sn op = true \/ t <> TList TInt -> opty an X op = Some t -> read_or_load_operand s op = Ok o ->
  okvall (lit_operand an op) S t o /\ forall r c v, Lk X s r c -> getv c op = Some v -> eval I r (o_src o) = Some v.
Proof.
  intros OS CL T R. split; [|eapply operand_ev; eauto]. destruct op as [x p|z| |]; cbn [opty] in T.
  - destruct (nmem (p, x) X) eqn:M; [|discriminate]. apply nmem_in in M.
    eapply okobj_val; [exact T | exact CL | apply (os_obj _ _ OS _ _ (operand_sget _ _ _ _ R))].
  - injection T as <-. cbn in R. injection R as <-. constructor; auto. { split; [intros y [] | split; intros; reflexivity || discriminate]. } intros r _. exists (VInt z). auto.
  - injection T as <-. cbn in R. injection R as <-. constructor; auto. { split; [intros y [] | split; intros; reflexivity || discriminate]. } intros r _. exists (VBool true). auto.
  - injection T as <-. cbn in R. injection R as <-. constructor; auto. { split; [intros y [] | split; intros; reflexivity || discriminate]. } intros r _. exists (VBool false). auto.
Qed.
Lemma operand_ok S X s op t o : okst S s -> clear an sn op && negb (lit_operand an op) = true -> opty an X op = Some t -> read_or_load_operand s op = Ok o ->
  okval S t o /\ forall r c v, Lk X s r c -> getv c op = Some v -> eval I r (o_src o) = Some v.
Proof.
  intros OS CL T R. apply andb_true_iff in CL as [CL LO]. apply negb_true_iff in LO. rewrite <- LO. apply operand_ok'; auto.
Qed.
Lemma operand_int S X s op o : okst S s -> opty an X op = Some TInt -> read_or_load_operand s op = Ok o ->
  okval S TInt o /\ forall r c v, Lk X s r c -> getv c op = Some v -> eval I r (o_src o) = Some v.
Proof.
  intros OS T R. assert (LO : lit_operand an op = false).
  { destruct op as [x p| | |]; cbn [opty] in T; try discriminate; auto. destruct (nmem (p, x) X); [|discriminate]. cbn. unfold lit. now rewrite T. }
  rewrite <- LO. apply operand_ok'; auto. right. discriminate.
Qed.
Lemma read_load s op : is_ptr op = false -> read_operand s op = read_or_load_operand s op.
Proof. intros H. unfold read_or_load_operand. now rewrite H. Qed.

Lemma operands_ok S X s args : okst S s -> forallb (fun o => clear an sn o && negb (lit_operand an o)) args = true -> forall ts os, mapO (opty an X) args = Some ts ->
  mapR (read_or_load_operand s) args = Ok os ->
  Forall2 (okval S) ts os /\
  forall r c vs, Lk X s r c -> mapO (getv c) args = Some vs -> mapO (eval I r) (map o_src os) = Some vs.
Proof.
  intros OS. induction args as [|a args IH]; intros CL ts os T R; cbn [mapO mapR] in T, R.
  - injection T as <-. injection R as <-. split; [constructor|]. intros r c vs _ H. cbn in H |- *. congruence.
  - destruct (opty an X a) as [t|] eqn:Ta; [|discriminate]. destruct (mapO (opty an X) args) as [ts'|]; [|discriminate].
    injection T as <-. ok R o Eo. ok R os' Eos. injection R as <-.
    cbn [forallb] in CL. apply andb_true_iff in CL as [CL1 CL2].
    destruct (operand_ok _ _ _ _ _ _ OS CL1 Ta Eo) as [V E]. destruct (IH CL2 ts' os' eq_refl Eos) as [Vs Es].
    split; [now constructor|]. intros r c vs L H. cbn [mapO] in H. destruct (getv c a) as [v|] eqn:Gv; [|discriminate].
    destruct (mapO (getv c) args) as [vs'|] eqn:Gvs; [|discriminate]. injection H as <-.
    cbn [map mapO]. rewrite (E r c v L Gv). now rewrite (Es r c vs' L Gvs).
Qed.

(** *** values of the generated expressions *)

Lemma bin_ok S op a b o : okval S TInt a -> okval S TInt b -> bin_obj op a b = Ok o ->
  smem op ["add"; "sub"; "mul"; "sdiv"; "srem"] = true ->
  okval S TInt o /\ forall r x y z, eval I r (o_src a) = Some (VInt x) -> eval I r (o_src b) = Some (VInt y) ->
    agrees_bin op x y = true -> bin32 op x y = Some z -> eval I r (o_src o) = Some (VInt z).
Proof.
  intros [Ta Ga Ya Va] [Tb Gb Yb Vb] B M. unfold bin_obj in B. rewrite Ta, Tb in B. cbn [ty_eqb negb orb] in B.
  assert (W : forall z, in32 z = true -> wrap32 z = z).
  { intros z Z. unfold in32 in Z. apply andb_true_iff in Z as [Z1 Z2]. apply Z.leb_le in Z1. apply Z.ltb_lt in Z2.
    unfold wrap32. rewrite Z.mod_small; lia. }
  assert (K : forall k, int_op k a b = Ok o -> In k [KAdd; KSub; KMul; KDiv; KMod] ->
     o = {| o_ty := TInt; o_src := Node k TInt [o_src a; o_src b] |} /\ okval S TInt o).
  { intros k H INk. apply int_op_ok in H. subst o. split; auto. constructor; auto.
    - cbn [o_src]. apply gv2; try (eapply gv_good; eassumption). simpl in INk |- *. tauto.
    - intros r F. destruct (Va r F) as (va & Ea & Tva). destruct (Vb r F) as (vb & Eb & Tvb).
      destruct (of_int _ Tva) as [x ->], (of_int _ Tvb) as [y ->]. cbn [o_src].
      simpl in INk. decompose [or] INk; subst; try tauto; cbn; rewrite Ea, Eb; cbn; eauto.
      + destruct (lib_div_total _ (ll_lib _ LIB) x y) as [z ->]. cbn. eauto.
      + destruct (ll_mod_total _ LIB x y) as [z ->]. cbn. eauto. }
  destruct (op =? "add") eqn:E1; [|destruct (op =? "sub") eqn:E2; [|destruct (op =? "mul") eqn:E3;
    [|destruct (op =? "sdiv") eqn:E4; [|destruct (op =? "srem") eqn:E5; [|discriminate]]]]].
  - destruct (K _ B) as [-> V]; [simpl; auto|]. split; auto. intros r x y z Ex Ey A R. cbn. rewrite Ex, Ey. cbn.
    unfold bin32, agrees_bin in *. rewrite E1 in *. rewrite W in R; congruence.
  - destruct (K _ B) as [-> V]; [simpl; auto|]. split; auto. intros r x y z Ex Ey A R. cbn. rewrite Ex, Ey. cbn.
    unfold bin32, agrees_bin in *. rewrite E1, E2 in *. rewrite W in R; congruence.
  - destruct (K _ B) as [-> V]; [simpl; auto|]. split; auto. intros r x y z Ex Ey A R. cbn. rewrite Ex, Ey. cbn.
    unfold bin32, agrees_bin in *. rewrite E1, E2, E3 in *. rewrite W in R; congruence.
  - destruct (K _ B) as [-> V]; [simpl; auto|]. split; auto. intros r x y z Ex Ey A R. cbn. rewrite Ex, Ey. cbn.
    unfold bin32, agrees_bin in *. rewrite E1, E2, E3, E4 in *. cbn [orb] in R. apply andb_true_iff in A as [A1 A2].
    apply Z.leb_le in A1. apply Z.ltb_lt in A2. rewrite (lib_div _ (ll_lib _ LIB)) by lia.
    destruct ((y =? 0)%Z || _); [discriminate|]. injection R as <-. cbn. now rewrite Z.quot_div_nonneg.
  - destruct (K _ B) as [-> V]; [simpl; auto 10|]. split; auto. intros r x y z Ex Ey A R. cbn. rewrite Ex, Ey. cbn.
    unfold bin32, agrees_bin in *. rewrite E1, E2, E3, E4, E5 in *. cbn [orb] in R. apply andb_true_iff in A as [A1 A2].
    apply Z.leb_le in A1. apply Z.ltb_lt in A2. rewrite (ll_mod _ LIB) by lia.
    destruct ((y =? 0)%Z || _); [discriminate|]. injection R as <-. cbn. now rewrite Z.rem_mod_nonneg.
Qed.

Lemma cmp_ok S cond a b o : okval S TInt a -> okval S TInt b -> cmp_obj cond a b = Ok o ->
  okval S TBool o /\ forall r x y c, eval I r (o_src a) = Some (VInt x) -> eval I r (o_src b) = Some (VInt y) ->
    agrees_cmp cond x y = true -> cmp32 cond x y = Some c ->
    eval I r (o_src o) = Some (VBool c).
Proof.
  intros [Ta Ga Ya Va] [Tb Gb Yb Vb] B. unfold cmp_obj in B. rewrite Ta, Tb in B. cbn [ty_eqb negb orb] in B.
  assert (K : forall k, In k [KEq; KGt; KLe; KLt; KGe] ->
     o = {| o_ty := TBool; o_src := Node k TBool [o_src a; o_src b] |} -> okval S TBool o).
  { intros k INk ->. constructor; auto.
    - cbn [o_src]. apply gv2; try (eapply gv_good; eassumption). simpl in INk |- *. tauto.
    - intros r F. destruct (Va r F) as (va & Ea & Tva). destruct (Vb r F) as (vb & Eb & Tvb).
      destruct (of_int _ Tva) as [x ->], (of_int _ Tvb) as [y ->]. cbn [o_src].
      simpl in INk. decompose [or] INk; subst; try tauto; cbn; rewrite Ea, Eb; cbn; eauto. }
  unfold cmp32. destruct (cond =? "eq") eqn:E1; [|destruct (cond =? "ne") eqn:E2; [|destruct (cond =? "sgt") eqn:E3;
    [|destruct (cond =? "sle") eqn:E4; [|destruct (cond =? "slt") eqn:E5; [|destruct (cond =? "ult") eqn:E6;
      [|destruct (cond =? "sge") eqn:E7; [|discriminate]]]]]]]; cbn [orb] in B.
  - apply int_eq_ok in B. split; [eapply K; eauto; simpl; auto|]. subst o. intros r x y c Ex Ey A R. cbn. rewrite Ex, Ey. cbn. congruence.
  - ok B e Ee. ok B n En. injection B as <-. apply int_eq_ok in Ee. subst e. apply not_ok in En. subst n. cbn [o_src].
    split.
    + constructor; auto; cbn [o_src].
      * apply gv_not. eapply (gv_goodb true). apply gv2; try (eapply gv_good; eassumption). simpl. tauto.
      * intros r F. destruct (Va r F) as (va & Ea & Tva). destruct (Vb r F) as (vb & Eb & Tvb). cbn. rewrite Ea, Eb. cbn. eauto.
    + intros r x y c Ex Ey A R. cbn. rewrite Ex, Ey. cbn. congruence.
  - apply int_cmp_ok in B. split; [eapply K; eauto; simpl; auto|]. subst o. intros r x y c Ex Ey A R. cbn. rewrite Ex, Ey. cbn. congruence.
  - apply int_cmp_ok in B. split; [eapply K; eauto; simpl; auto|]. subst o. intros r x y c Ex Ey A R. cbn. rewrite Ex, Ey. cbn.
    apply String.eqb_eq in E4. subst cond. cbn in R. congruence.
  - apply int_cmp_ok in B. split; [eapply K; eauto; simpl; auto|]. subst o. intros r x y c Ex Ey A R. cbn. rewrite Ex, Ey. cbn.
    apply String.eqb_eq in E5. subst cond. cbn in R. congruence.
  - apply int_cmp_ok in B. split; [eapply K; eauto; simpl; auto|]. subst o. intros r x y c Ex Ey A R. cbn. rewrite Ex, Ey. cbn.
    apply String.eqb_eq in E6. subst cond. cbn in R. injection R as <-. cbn in A. apply andb_true_iff in A as [A Y32].
    apply andb_true_iff in A as [A A2]. apply andb_true_iff in A as [A1 X32].
    apply Z.leb_le in A1, A2. unfold in32 in X32, Y32. apply andb_true_iff in X32 as [_ X32], Y32 as [_ Y32]. apply Z.ltb_lt in X32, Y32.
    unfold unsigned. rewrite !Z.mod_small by lia. reflexivity.
  - apply int_cmp_ok in B. split; [eapply K; eauto; simpl; auto 10|]. subst o. intros r x y c Ex Ey A R. cbn. rewrite Ex, Ey. cbn.
    apply String.eqb_eq in E7. subst cond. cbn in R. congruence.
Qed.

(** *** one instruction *)

Lemma set_prim_facts v b x o : same_but b v (set_prim v b x o) /\ st (set_prim v b x o) b = sset (st v b) (false, x) o.
Proof.
  split; [constructor; auto; intros c H; unfold set_prim, st; cbn; rewrite dget_dset; destruct (String.eqb_spec c b); [congruence | reflexivity]|].
  unfold set_prim, st at 1; cbn. rewrite dget_dset, String.eqb_refl. reflexivity.
Qed.
Lemma set_ptr_facts v b x o : same_but b v (set_ptr v b x o) /\ st (set_ptr v b x o) b = sset (st v b) (true, x) o.
Proof.
  split; [constructor; auto; intros c H; unfold set_ptr, st; cbn; rewrite dget_dset; destruct (String.eqb_spec c b); [congruence | reflexivity]|].
  unfold set_ptr, st at 1; cbn. rewrite dget_dset, String.eqb_refl. reflexivity.
Qed.
Lemma set_prim_types v b x o : typesok v -> label_ok an (false, x) (o_ty o) = true -> typesok (set_prim v b x o).
Proof.
  intros [A B] R. split; [|exact B]. intros y t. cbn. rewrite dget_dset. destruct (String.eqb_spec y x) as [->|]; [intros [= <-]; exact R | apply A].
Qed.
Lemma set_ptr_types v b x o : typesok v -> junk an (true, x) || label_ok an (true, x) (o_ty o) = true -> typesok (set_ptr v b x o).
Proof.
  intros [A B] R. split; [exact A|]. intros y t. cbn. rewrite dget_dset. destruct (String.eqb_spec y x) as [->|]; [intros [= <-]; exact R | apply B].
Qed.

Variables (fn : string) (fargs : list obj) (sret : option obj).
Notation VI := (visit_instr fn fargs sret uninterp).

(** an instruction sets one register, or the frontend skips it *)
Definition stepped (b : string) (i : instr) (X X' : list name) (S : list string) (v v' : visitor) : Prop :=
  exists n o, defs1 i = [n] /\ same_but b v v' /\ typesok v' /\ sets (st v b) n o (st v' b) /\ okobj S n o /\
  forall r c out, Lk X (st v b) r c -> lstep U c i = Some out -> exists c', out = Next c' /\ Lk X' (st v' b) r c'.
Definition skipped (b : string) (i : instr) (X X' : list name) (v v' : visitor) : Prop :=
  defs1 i = [] /\ v' = v /\
  forall r c out, Lk X (st v b) r c -> lstep U c i = Some out -> exists c', out = Next c' /\ Lk X' (st v' b) r c'.

Lemma stepped_prim l b i X S v x o t : (l = true -> lit an (false, x) = true) -> typesok v -> okvall l S t o -> reg_ty an (false, x) = Some t -> defs1 i = [(false, x)] ->
  (forall r c out, Lk X (st v b) r c -> lstep U c i = Some out ->
     exists w, out = Next (putp c x w) /\ eval I r (o_src o) = Some w) ->
  stepped b i X ((false, x) :: X) S v (set_prim v b x o).
Proof.
  intros LL T V R D H. exists (false, x), o. destruct (set_prim_facts v b x o) as [SB E]. split; auto. split; auto.
  split; [apply set_prim_types; auto; rewrite (ov_ty _ _ _ _ V); now apply label_reg|]. rewrite E. split; [apply sets_sset|]. split; [eapply okvall_obj; eauto|].
  intros r c out L ST. destruct (H r c out L ST) as (w & -> & EV). eexists. split; [reflexivity|].
  eapply lk_sets; eauto using sets_sset. { apply (cget_putr c false). } intros m. apply (cget_putr_other c false).
Qed.
Lemma stepped_ptr l b i X S v x o t : (l = true -> lit an (true, x) = true) -> typesok v -> okvall l S t o -> reg_ty an (true, x) = Some t -> defs1 i = [(true, x)] ->
  (forall r c out, Lk X (st v b) r c -> lstep U c i = Some out ->
     exists w, out = Next (putm c x (Some w)) /\ eval I r (o_src o) = Some w) ->
  stepped b i X ((true, x) :: X) S v (set_ptr v b x o).
Proof.
  intros LL T V R D H. exists (true, x), o. destruct (set_ptr_facts v b x o) as [SB E]. split; auto. split; auto.
  split; [apply set_ptr_types; auto; rewrite (ov_ty _ _ _ _ V), (label_reg _ _ R); apply orb_true_r|]. rewrite E. split; [apply sets_sset|]. split; [eapply okvall_obj; eauto|].
  intros r c out L ST. destruct (H r c out L ST) as (w & -> & EV). eexists. split; [reflexivity|].
  eapply lk_sets; eauto using sets_sset. { apply (cget_putr c true). } intros m. apply (cget_putr_other c true).
Qed.
Lemma stepped_res b i X S v p x o t : typesok v -> okval S t o -> reg_ty an (p, x) = Some t -> defs1 i = [(p, x)] ->
  (forall r c out, Lk X (st v b) r c -> lstep U c i = Some out ->
     exists w, out = Next (putr c p x w) /\ eval I r (o_src o) = Some w) ->
  stepped b i X ((p, x) :: X) S v (set_st v b (sset (st v b) (p, x) o)).
Proof.
  intros T V R D H. exists (p, x), o. split; auto. split; [apply same_set_st|]. split; auto.
  rewrite st_set_same. split; [apply sets_sset|]. split; [eapply okval_obj; eauto|].
  intros r c out L ST. destruct (H r c out L ST) as (w & -> & EV). eexists. split; [reflexivity|].
  eapply lk_sets; eauto using sets_sset. { apply (cget_putr c p). } intros m. apply (cget_putr_other c p).
Qed.

Lemma without_in n x X : In n (without x X) -> In n X /\ n <> (true, x).
Proof.
  intros IN. apply filter_In in IN as [IN NE]. split; auto. intros E'. apply name_eqb_spec in E'. rewrite E' in NE. discriminate.
Qed.
Lemma lk_without X s r c x o s' c' : Lk X s r c -> sets s (true, x) o s' -> (forall m, m <> (true, x) -> cget c' m = cget c m) ->
  Lk (without x X) s' r c'.
Proof.
  intros L SE C n IN. apply without_in in IN as [IN NE]. destruct (L n IN) as (o' & w & A & B & D). exists o', w.
  rewrite (se_other _ _ _ _ SE n NE), (C n NE). auto.
Qed.
Lemma stepped_junk b i X S v x o : typesok v -> junk an (true, x) = true -> defs1 i = [(true, x)] ->
  incl (fv (o_src o)) (xs S) /\ type_of (o_src o) = Ok (o_ty o) /\ (forall r, fits G r -> exists w, eval I r (o_src o) = Some w) ->
  (forall c out, lstep U c i = Some out -> exists c', out = Next c' /\ forall m, m <> (true, x) -> cget c' m = cget c m) ->
  stepped b i X (without x X) S v (set_ptr v b x o).
Proof.
  intros T J D (GO & TY & VA) H. exists (true, x), o. destruct (set_ptr_facts v b x o) as [SB E]. split; auto. split; auto.
  split; [apply set_ptr_types; auto; now rewrite J|]. rewrite E. split; [apply sets_sset|]. split.
  - constructor; auto; [split; [unfold ns; now rewrite J | split; [now rewrite J | unfold reg_ty; now rewrite J]] | now rewrite J|]. intros r F. destruct (VA r F) as [w W]. exists w. split; auto. unfold Pn, reg_ty. now rewrite J.
  - intros r c out L ST. destruct (H c out ST) as (c' & -> & C). exists c'. split; auto. eapply lk_without; eauto using sets_sset.
Qed.

(** values of library calls *)
Lemma list_empty_ok S o : list_empty TInt = Ok o -> okval S (TList TInt) o /\ forall r, eval I r (o_src o) = Some (VList []).
Proof.
  intros H. vm_compute in H. injection H as <-. split.
  - constructor; auto. { split; [intros y [] | split; intros; reflexivity]. }
    intros r _. exists (VList []). split; [apply (lib_empty _ (ll_lib _ LIB)) | reflexivity].
  - intros r. apply (lib_empty _ (ll_lib _ LIB)).
Qed.
Lemma call_okval S f t os : Forall (fun a => good S (o_src a)) os ->
  (forall r, fits G r -> exists v, match mapO (eval I r) (map o_src os) with Some vs => i_call I f vs | None => None end = Some v /\ of_type t v = true) ->
  okval S t {| o_ty := t; o_src := Node KCall t (Atom (PStr f) :: map o_src os) |}.
Proof.
  intros F V. constructor; auto. { apply gv_call. rewrite Forall_map. exact F. }
Qed.
Lemma len_ok S l o : okval S (TList TInt) l -> o_len l = Ok o -> okval S TInt o /\
  forall r w, eval I r (o_src l) = Some (VList w) -> eval I r (o_src o) = Some (VInt (Z.of_nat (length w))).
Proof.
  intros [T Gl Y V] H. unfold o_len in H. rewrite T in H. apply call_ok in H. subst o. split.
  - apply call_okval; [apply Forall_cons; [eapply gv_good; exact Gl|apply Forall_nil]|]. intros r F. destruct (V r F) as (w & E & Tw). destruct (of_list _ Tw) as [l' ->].
    cbn [map mapO]. rewrite E, (lib_length _ (ll_lib _ LIB)). eauto.
  - intros r w E. cbn. rewrite E. apply (lib_length _ (ll_lib _ LIB)).
Qed.
Lemma append_call_ok S l e : okval S (TList TInt) l -> okval S TInt e ->
  let o := {| o_ty := TList TInt; o_src := Node KCall (TList TInt) [Atom (PStr "list_append"); o_src l; o_src e] |} in
  okval S (TList TInt) o /\
  forall r w x, eval I r (o_src l) = Some (VList w) -> eval I r (o_src e) = Some x -> eval I r (o_src o) = Some (VList (w ++ [x])).
Proof.
  intros [T Gl Y V] [Te Ge Ye Ve] o. split.
  - apply (call_okval S "list_append" (TList TInt) [l; e]); [apply Forall_cons; [eapply gv_good; exact Gl|repeat (apply Forall_cons; [eapply gv_good; exact Ge|]); apply Forall_nil]|].
    intros r F. destruct (V r F) as (w & E & Tw). destruct (of_list _ Tw) as [l' ->].
    destruct (Ve r F) as (x & Ex & Tx). cbn [map mapO]. rewrite E, Ex, (lib_append _ (ll_lib _ LIB)). eexists. split; [reflexivity|].
    change (forallb (of_type TInt) l' = true) in Tw. change (forallb (of_type TInt) (l' ++ [x]) = true). rewrite forallb_app, Tw. cbn [forallb]. now rewrite Tx.
  - intros r w x E Ex. cbn. rewrite E, Ex. apply (lib_append _ (ll_lib _ LIB)).
Qed.
Lemma push_ok S a l e nm t : okobj S (true, a) l -> okval S TInt e -> reg_ty an (true, a) = Some (TList TInt) -> label_ok an (true, a) t = true ->
  nm = "list_append" \/ nm = "matrix_append" ->
  let o := {| o_ty := t; o_src := Node KCall t [Atom (PStr nm); o_src l; o_src e] |} in
  okobj S (true, a) o /\
  forall r w x, eval I r (o_src l) = Some (VList w) -> eval I r (o_src e) = Some x -> eval I r (o_src o) = Some (VList (w ++ [x])).
Proof.
  intros [Gl Y L V] [Te Ge Ye Ve] R LB NM o.
  assert (AP : forall w x, i_call I nm [VList w; x] = Some (VList (w ++ [x]))).
  { intros w x. destruct NM as [->| ->]; [apply (lib_append _ (ll_lib _ LIB)) | apply (ll_mappend _ LIB)]. }
  split.
  - constructor.
    + destruct Gl as (Gl1 & Gl2 & _). assert (GL : good (ns S (true, a)) (o_src l)).
      { split; auto. apply Gl2. rewrite (reg_junk _ _ R). unfold lit. now rewrite R. }
      destruct (gv_call false (TList TInt) (ns S (true, a)) nm t [o_src l; o_src e]) as (C1 & C2 & _).
      { constructor; [exact GL|]. constructor; [|constructor]. eapply good_weaken; [apply ns_incl | eapply gv_good; exact Ge]. }
      split; [exact C1|]. split; [intros _; now apply C2 | rewrite R; discriminate].
    + reflexivity.
    + cbn [o_ty o]. rewrite LB. apply orb_true_r.
    + intros r F. unfold Pn in *. rewrite R in *. destruct (V r F) as (w & E & Tw). destruct (of_list _ Tw) as [l' ->].
      destruct (Ve r F) as (x & Ex & Tx). exists (VList (l' ++ [x])). split; [cbn; rewrite E, Ex; apply AP|].
      change (forallb (of_type TInt) l' = true) in Tw. change (forallb (of_type TInt) (l' ++ [x]) = true). rewrite forallb_app, Tw. cbn [forallb]. now rewrite Tx.
  - intros r w x E Ex. cbn. rewrite E, Ex. apply AP.
Qed.
Lemma get_ok S l j o : okval S (TList TInt) l -> okval S TInt j -> getitem l (IxObj j) = Ok o -> okval S TInt o /\
  forall r w z x, eval I r (o_src l) = Some (VList w) -> eval I r (o_src j) = Some (VInt z) -> (z <? 0)%Z = false ->
    nth_error w (Z.to_nat z) = Some x -> eval I r (o_src o) = Some x.
Proof.
  intros [T Gl Y V] [Te Ge Ye Ve] H. unfold getitem in H. rewrite T in H. cbn [contained bindR] in H. apply call_ok in H. subst o. split.
  - apply call_okval; [apply Forall_cons; [eapply gv_good; exact Gl|repeat (apply Forall_cons; [eapply gv_good; exact Ge|]); apply Forall_nil]|]. intros r F. destruct (V r F) as (w & E & Tw). destruct (of_list _ Tw) as [l' ->].
    destruct (Ve r F) as (x & Ex & Tx). destruct (of_int _ Tx) as [z ->]. cbn [map mapO]. rewrite E, Ex.
    destruct (lib_get_total _ (ll_lib _ LIB) l' z Tw) as [u Eu]. exists (VInt u). split; auto.
  - intros r w z x E Ex N NE. cbn. rewrite E, Ex. apply Z.ltb_ge in N. now apply (lib_get _ (ll_lib _ LIB)).
Qed.

Lemma f2_1 S t os : Forall2 (okval S) [t] os -> exists a, os = [a] /\ okval S t a.
Proof. intros F. inversion F as [|? a ? ? A B]; subst. inversion B; subst. eauto. Qed.
Lemma f2_2 S t u os : Forall2 (okval S) [t; u] os -> exists a b, os = [a; b] /\ okval S t a /\ okval S u b.
Proof. intros F. inversion F as [|? a ? ? A B]; subst. apply f2_1 in B as (b & -> & B). eauto. Qed.

Lemma set_where_ok S v b p a l t v' : okst S (st v b) -> reg_ty an (p, a) = Some t -> sget (st v b) (p, a) <> None ->
  label_ok an (p, a) (o_ty l) = true -> set_where v b a l = Ok v' -> typesok v ->
  same_but b v v' /\ typesok v' /\ st v' b = sset (st v b) (p, a) l.
Proof.
  intros OS R NN TL W T. unfold set_where in W.
  assert (P : p = false -> dmem (prims (st v b)) a = true).
  { intros ->. unfold sget in NN. cbn in NN. unfold dmem. destruct (dget (prims (st v b)) a); congruence. }
  assert (Q : p = true -> dmem (prims (st v b)) a = false /\ dmem (ptrs (st v b)) a = true).
  { intros ->. split.
    - unfold dmem. destruct (dget (prims (st v b)) a) as [o|] eqn:E; auto.
      destruct (okobj_prim _ _ _ (os_obj _ _ OS (false, a) o E)) as (u & Ru). exfalso. eapply disj_names; eauto.
    - unfold sget in NN. cbn in NN. unfold dmem. destruct (dget (ptrs (st v b)) a); congruence. }
  destruct p.
  - destruct (Q eq_refl) as [Q1 Q2]. rewrite Q1, Q2 in W. injection W as <-. destruct (set_ptr_facts v b a l). split; auto. split; auto.
    apply set_ptr_types; auto. rewrite TL. apply orb_true_r.
  - rewrite (P eq_refl) in W. injection W as <-. destruct (set_prim_facts v b a l). split; auto. split; auto.
    now apply set_prim_types.
Qed.

Lemma write_result_eq v b x ptr o : (x =? "") = false -> write_result v b x ptr o = set_st v b (sset (st v b) (ptr, x) o).
Proof. intros E. unfold write_result. rewrite E. destruct ptr; reflexivity. Qed.
Lemma sget_opty S X s p a t o : okst S s -> opty an X (OName a p) = Some t -> read_or_load_operand s (OName a p) = Ok o ->
  sget s (p, a) = Some o /\ reg_ty an (p, a) = Some t.
Proof.
  intros OS T R. cbn [opty] in T. destruct (nmem (p, a) X); [|discriminate]. split; auto.
  destruct p; unfold read_or_load_operand, sget in *; cbn in R |- *; [destruct (dget (ptrs s) a) | destruct (dget (prims s) a)]; congruence.
Qed.
Lemma sget_ptr_eq s a : sget s (true, a) = dget (ptrs s) a. Proof. reflexivity. Qed.

Ltac andb H := repeat (apply andb_true_iff in H; let K := fresh "K" in destruct H as [H K]; try andb K).

Lemma step_char b i X X' S v v' : okst S (st v b) -> typesok v -> ok_instr an uninterp sn X i = Some X' ->
  VI b i v = Ok v' -> stepped b i X X' S v v' \/ skipped b i X X' v v'.
Proof.
  intros OS T K V. destruct i as [x t|x p src|val dst|op x l r|cond x l r|op x a|x p f args t|t|c t e|o|]; try discriminate K.
  - (* alloca *)
    left. cbn [ok_instr] in K. destruct (match t with TInt => _ | _ => _ end) eqn:C; [|discriminate]. injection K as <-.
    unfold visit_instr in V. ok V o Eo. injection V as <-.
    assert (OV : exists l u, okvall l S u o /\ (junk an (true, x) = true \/ reg_ty an (true, x) = Some u /\ (l = true -> lit an (true, x) = true))).
    { destruct t; try discriminate C; cbn [default_value] in Eo.
      - injection Eo as <-. exists false, TInt. split.
        + constructor; auto. { split; [intros y [] | split; intros; reflexivity || discriminate]. } intros r _. exists (VInt 0). auto.
        + apply orb_true_iff in C as [C|C]; auto. right. split; [now apply is_ty_eq | discriminate].
      - injection Eo as <-. exists true, TBool. split.
        + constructor; auto. { split; [intros y [] | split; intros; reflexivity || discriminate]. } intros r _. exists (VBool false). auto.
        + apply orb_true_iff in C as [C|C]; auto. right. split; auto. unfold lit in C. destruct (reg_ty an (true, x)) as [[]|]; congruence.
      - exists false, (TList TInt). split; [now apply list_empty_ok|]. apply orb_true_iff in C as [C|C]; auto. right. split; [now apply is_ty_eq | discriminate]. }
    destruct OV as (l & u & OV & JR).
    assert (OO : okobj S (true, x) o).
    { destruct JR as [J|[R LL]]; [|eapply okvall_obj; eauto]. destruct OV as [A B D E]. constructor.
      - split; [eapply incl_tran; [apply B | apply ns_incl]|]. split; [now rewrite J | unfold reg_ty; now rewrite J].
      - congruence.
      - now rewrite J.
      - intros r F. destruct (E r F) as (w & W & _). exists w. split; auto. unfold Pn, reg_ty. now rewrite J. }
    exists (true, x), o. destruct (set_ptr_facts v b x o) as [SB E]. split; auto. split; auto.
    split; [apply set_ptr_types; auto; apply (oo_lab _ _ _ OO)|]. rewrite E. split; [apply sets_sset|]. split; [exact OO|].
    intros r c out L ST. cbn in ST. injection ST as <-. eexists. split; [reflexivity|]. eapply lk_without; eauto using sets_sset.
    intros m N. destruct m as [[] y]; unfold cget; cbn; auto. unfold put. destruct (String.eqb_spec x y); congruence.
  - (* load *)
    left. cbn [ok_instr] in K. destruct src as [y [] | | |]; try discriminate K.
    destruct (opty an X (OName y true)) as [t|] eqn:TY; [|discriminate].
    destruct (is_ty (reg_ty an (p, x)) t && _ && _) eqn:C; [|discriminate]. injection K as <-. apply andb_true_iff in C as [C LL]. apply andb_true_iff in C as [C CL]. apply is_ty_eq in C.
    unfold visit_instr in V. ok V o Eo. assert (Eo' : read_or_load_operand (st v b) (OName y true) = Ok o) by exact Eo.
    destruct (operand_ok' _ _ _ _ _ _ OS (or_introl CL) TY Eo') as [OV EV].
    assert (LL' : lit an (true, y) = true -> lit an (p, x) = true) by (intros Q; now rewrite Q in LL).
    assert (H : forall r c out, Lk X (st v b) r c -> lstep U c (ILoad x p (OName y true)) = Some out ->
              exists w, out = Next (putr c p x w) /\ eval I r (o_src o) = Some w).
    { intros r c out L ST. cbn in ST. destruct (sm c y) as [w|] eqn:SM; [|discriminate]. injection ST as <-.
      exists w. split; auto. now apply (EV r c w L). }
    destruct p; injection V as <-; [eapply (stepped_ptr (lit an (true, y))) | eapply (stepped_prim (lit an (true, y)))]; eauto.
  - (* store *)
    left. cbn [ok_instr] in K. destruct dst as [y [] | | |]; try discriminate K. unfold visit_instr in V. ok V o Eo. injection V as <-.
    destruct (junk an (true, y)) eqn:J.
    + injection K as <-. eapply stepped_junk; eauto.
      * apply (operand_good _ _ _ _ OS Eo).
      * intros c out ST. cbn [lstep] in ST. destruct (cells c y && _); [|discriminate]. destruct (getv c val) as [w|].
        -- injection ST as <-. eexists. split; [reflexivity|]. intros m. apply (cget_putr_other c true).
        -- destruct (is_address val); [|discriminate]. injection ST as <-. eexists. split; [reflexivity|].
           intros m N. destruct m as [[] z]; unfold cget; cbn; auto. unfold put. destruct (String.eqb_spec y z); congruence.
    + destruct (opty an X val) as [t|] eqn:TY; [|discriminate].
      destruct (is_ty (reg_ty an (true, y)) t && _ && _) eqn:C; [|discriminate]. injection K as <-.
      apply andb_true_iff in C as [C LL]. apply andb_true_iff in C as [C CL]. apply is_ty_eq in C.
      destruct (operand_ok' _ _ _ _ _ _ OS (or_introl CL) TY Eo) as [OV EV].
      eapply (stepped_ptr (lit_operand an val)); eauto. { intros Q. now rewrite Q in LL. } intros r c out L ST. cbn [lstep] in ST.
      destruct (cells c y && _); [|discriminate]. destruct (getv c val) as [w|] eqn:GV.
      * injection ST as <-. exists w. split; auto. now apply (EV r c w L).
      * exfalso. destruct val as [z []| | |]; try discriminate. cbn [opty] in TY. destruct (nmem (true, z) X) eqn:M; [|discriminate].
        apply nmem_in in M. destruct (L _ M) as (o' & w & _ & B & _). unfold cget in B. cbn in B, GV. congruence.
  - (* arithmetic *)
    left. cbn [ok_instr] in K. destruct (_ && _) eqn:C; [|discriminate]. injection K as <-.
    repeat (apply andb_true_iff in C as [C ?]). repeat match goal with H : is_ty _ _ = true |- _ => apply is_ty_eq in H end.
    repeat match goal with H : negb _ = true |- _ => apply negb_true_iff in H end.
    unfold visit_instr in V. ok V lo El. ok V ro Er. ok V o Eo. injection V as <-. rewrite read_load in El, Er by auto.
    destruct (operand_int _ _ _ _ _ OS C El) as [OL EL]. destruct (operand_int _ _ _ _ _ OS H3 Er) as [OR ER].
    destruct (bin_ok _ _ _ _ _ OL OR Eo H0) as [OV EV].
    eapply (stepped_prim false); eauto; try discriminate. intros s c out L ST. cbn [lstep] in ST.
    destruct (getv c l) as [[n| | | |]|] eqn:GL; try discriminate ST. destruct (getv c r) as [[m| | | |]|] eqn:GR; try discriminate ST.
    destruct (agrees_bin op n m) eqn:AG; [|discriminate]. destruct (bin32 op n m) as [z|] eqn:B32; [|discriminate]. injection ST as <-.
    exists (VInt z). split; auto. eapply EV; eauto.
  - (* comparison *)
    left. cbn [ok_instr] in K. destruct (_ && _) eqn:C; [|discriminate]. injection K as <-.
    repeat (apply andb_true_iff in C as [C ?]). repeat match goal with H : is_ty _ _ = true |- _ => apply is_ty_eq in H end.
    repeat match goal with H : negb _ = true |- _ => apply negb_true_iff in H end.
    unfold visit_instr in V. ok V lo El. ok V ro Er. ok V o Eo. injection V as <-. rewrite read_load in El, Er by auto.
    destruct (operand_int _ _ _ _ _ OS C El) as [OL EL]. destruct (operand_int _ _ _ _ _ OS H3 Er) as [OR ER].
    destruct (cmp_ok _ _ _ _ _ OL OR Eo) as [OV EV].
    eapply (stepped_prim false); eauto; try discriminate. intros s c out L ST. cbn [lstep] in ST.
    destruct (getv c l) as [[n| | | |]|] eqn:GL; try discriminate ST. destruct (getv c r) as [[m| | | |]|] eqn:GR; try discriminate ST.
    destruct (agrees_cmp cond n m) eqn:AG; [|discriminate]. destruct (cmp32 cond n m) as [z|] eqn:B32; [|discriminate]. injection ST as <-.
    exists (VBool z). split; auto. eapply EV; eauto.
  - (* conversion *)
    left. cbn [ok_instr] in K. destruct (is_address a) eqn:IA.
    { destruct ((op =? "bitcast") && _) eqn:C; [|discriminate]. injection K as <-. apply andb_true_iff in C as [C J].
      destruct a as [y []| | |]; try discriminate IA. unfold visit_instr in V. rewrite C in V. cbn [is_ptr andb] in V. ok V o Eo. injection V as <-.
      assert (Eo' : read_or_load_operand (st v b) (OName y true) = Ok o) by exact Eo.
      eapply stepped_junk; eauto.
      - apply (operand_good _ _ _ _ OS Eo').
      - intros c out ST. cbn [lstep is_address] in ST. rewrite C in ST. injection ST as <-. eexists. split; [reflexivity|].
        intros m N. destruct m as [[] z]; unfold cget; cbn; auto. unfold put. destruct (String.eqb_spec x z); congruence. }
    destruct (_ && _) eqn:C; [|discriminate]. injection K as <-.
    repeat (apply andb_true_iff in C as [C ?]). repeat match goal with H : is_ty _ _ = true |- _ => apply is_ty_eq in H end.
    repeat match goal with H : negb _ = true |- _ => apply negb_true_iff in H end.
    unfold visit_instr in V. rewrite H0, andb_false_r in V. ok V o Eo. injection V as <-. rewrite read_load in Eo by auto.
    destruct (operand_int _ _ _ _ _ OS C Eo) as [OV EV].
    eapply (stepped_prim false); eauto; try discriminate. { cbn [defs1]. now rewrite IA. } intros s c out L ST. cbn [lstep] in ST. rewrite IA in ST.
    destruct (getv c a) as [[n| | | |]|] eqn:GA; try discriminate ST. destruct (_ && _); [|discriminate]. injection ST as <-.
    exists (VInt n). split; auto. now apply (EV s c _ L).
  - (* call *)
    cbn [ok_instr] in K. unfold visit_instr in V. destruct (f =? "push_back") eqn:PB.
    + apply String.eqb_eq in PB. subst f. destruct args as [|[a []| | |] [|e []]]; try discriminate K.
      destruct (_ && _) eqn:C; [|discriminate]. injection K as <-.
      repeat (apply andb_true_iff in C as [C ?]). repeat match goal with H : is_ty _ _ = true |- _ => apply is_ty_eq in H end.
      unfold visit_call in V. cbn [String.eqb Ascii.eqb Bool.eqb orb] in V.
      ok V l El. ok V y Ey. destruct (is_list_type (o_ty l)); [|discriminate]. ok V o Eo.
      destruct (operand_int _ _ _ _ _ OS H0 Ey) as [OE EE]. pose proof (operand_ev _ _ _ _ _ _ OS C El) as EL.
      destruct (sget_opty _ _ _ _ _ _ _ OS C El) as [SG RT]. pose proof (os_obj _ _ OS _ _ SG) as OL.
      destruct (label_exact _ _ (okobj_label _ _ _ (reg_junk _ _ RT) OL)) as (u & RU & LU). rewrite RT in RU. injection RU as <-.
      apply call_ok in Eo. subst o. left.
      match type of V with set_where _ _ _ ?o = _ => set (o1 := o) in * end.
      destruct (push_ok S a l y (shape_name (o_ty l) "matrix_append" "tensor3d_append" "list_append") t OL OE RT H) as [OV EV].
      { destruct LU as [->|(_ & _ & ->)]; cbn; auto. }
      assert (LT : label_ok an (true, a) (o_ty o1) = true) by exact H.
      destruct (set_where_ok S v b true a o1 (TList TInt) v' OS RT) as (SB & T' & ES); auto; [congruence|].
      exists (true, a), o1. split; auto. split; auto. split; auto. rewrite ES. split; [apply sets_sset|]. split; [exact OV|].
      intros r c out L ST. cbn [lstep String.eqb Ascii.eqb Bool.eqb] in ST. 
      destruct (cells c a); [|discriminate]. destruct (sm c a) as [[| |w| |]|] eqn:SM; try discriminate ST.
      destruct (getv c e) as [x'|] eqn:GE; [|discriminate]. injection ST as <-. eexists. split; [reflexivity|].
      assert (L' : Lk ((true, a) :: X) (sset (st v b) (true, a) o1) r (putm c a (Some (VList (w ++ [x']))))).
      { apply (lk_sets X (st v b) r c (true, a) o1 _ _ (VList (w ++ [x']))); [exact L | apply sets_sset | | |].
        - apply EV; [now apply (EL r c (VList w) L) | now apply (EE r c x' L)].
        - apply (cget_putr c true).
        - intros m. apply (cget_putr_other c true). }
      intros n IN. apply L'. now right.
    + destruct (f =? "vector") eqn:VE.
      { apply String.eqb_eq in VE. subst f. left. destruct args as [|[a []| | |] []]; try discriminate K.
        destruct (_ && _) eqn:C; [|discriminate]. injection K as <-. apply andb_true_iff in C as [C1 C2]. apply is_ty_eq in C1. apply ty_eqb_eq in C2. subst t.
        unfold visit_call in V. cbn [String.eqb Ascii.eqb Bool.eqb orb new_vector] in V. ok V o Eo. destruct (list_empty_ok S o Eo) as [OV EV].
        assert (LT : label_ok an (true, a) (o_ty o) = true) by (rewrite (ov_ty _ _ _ _ OV); now apply label_reg).
        assert (NN : sget (st v b) (true, a) <> None).
        { unfold set_where in V. unfold sget. cbn. destruct (dmem (prims (st v b)) a) eqn:DM.
          - exfalso. unfold dmem in DM. destruct (dget (prims (st v b)) a) as [o'|] eqn:E; [|discriminate].
            destruct (okobj_prim _ _ _ (os_obj _ _ OS (false, a) o' E)) as (u & Ru). eapply disj_names; eauto.
          - destruct (dmem (ptrs (st v b)) a) eqn:DM2; [|discriminate]. unfold dmem in DM2. destruct (dget (ptrs (st v b)) a); congruence. }
        destruct (set_where_ok S v b true a o (TList TInt) v' OS C1) as (SB & T' & ES); auto.
        exists (true, a), o. split; auto. split; auto. split; auto. rewrite ES. split; [apply sets_sset|]. split; [eapply okval_obj; eauto|].
        intros r c out L ST. cbn [lstep String.eqb Ascii.eqb Bool.eqb orb] in ST. destruct (cells c a); [|discriminate]. injection ST as <-.
        eexists. split; [reflexivity|]. eapply lk_sets; eauto using sets_sset. { apply (cget_putr c true). } intros m. apply (cget_putr_other c true). }
      destruct (f =? "~vector") eqn:VD.
      { apply String.eqb_eq in VD. subst f. right. destruct args as [|[a []| | |] []]; try discriminate K.
        destruct (negb _) eqn:C; [|discriminate]. injection K as <-. apply negb_true_iff in C.
        unfold visit_call in V. cbn [String.eqb Ascii.eqb Bool.eqb orb smem existsb other_models] in V. rewrite C in V. cbn in V. injection V as <-.
        split; [reflexivity|]. split; auto. intros r c out L ST. cbn [lstep String.eqb Ascii.eqb Bool.eqb orb] in ST. destruct (cells c a); [|discriminate]. injection ST as <-.
        eexists. split; [reflexivity|]. intros n IN. apply without_in in IN as [IN N]. destruct (L n IN) as (o & w & A & B & D). exists o, w. split; auto. split; auto.
        rewrite <- B. destruct n as [[] y]; unfold cget; cbn; auto. unfold put. destruct (String.eqb_spec a y); congruence. }
      destruct (f =? "clear") eqn:VC; [discriminate K|].
      left. destruct (mapO (opty an X) args) as [ts|] eqn:TS; [|discriminate].
      destruct (call_ty uninterp f ts t) as [u|] eqn:CT; [|discriminate].
      destruct (_ && _) eqn:C; [|discriminate]. injection K as <-.
      apply andb_true_iff in C as [C C3]. apply andb_true_iff in C as [C CL]. apply andb_true_iff in C as [C1 C2]. apply is_ty_eq in C1. apply negb_true_iff in C2.
      assert (HD : forall o, (forall r c vs w, Lk X (st v b) r c -> mapO (getv c) args = Some vs -> call_val U f vs = Some w -> eval I r (o_src o) = Some w) ->
        forall r c out, Lk X (st v b) r c -> lstep U c (ICall x p f args t) = Some out ->
          exists w, out = Next (putr c p x w) /\ eval I r (o_src o) = Some w).
      { intros o H r c out L ST. cbn [lstep] in ST. rewrite PB, VE, VD, VC in ST. cbn [orb] in ST. destruct (mapO (getv c) args) as [vs|] eqn:GV; [|discriminate].
        destruct (call_val U f vs) as [w|] eqn:CV; [|discriminate]. injection ST as <-. exists w. split; auto. eapply H; eauto. }
      assert (D1 : defs1 (ICall x p f args t) = [(p, x)]) by (cbn [defs1]; now rewrite PB, VE, VD).
      assert (RW : forall o, okval S u o ->
        (forall r c vs w, Lk X (st v b) r c -> mapO (getv c) args = Some vs -> call_val U f vs = Some w -> eval I r (o_src o) = Some w) ->
        stepped b (ICall x p f args t) X ((p, x) :: X) S v (set_st v b (sset (st v b) (p, x) o))).
      { intros o OV H. eapply stepped_res; eauto. }
      unfold call_ty in CT. unfold visit_call in V. unfold call_val in RW, HD.
      destruct (f =? "newList") eqn:F1; [|destruct ((f =? "listLength") || (f =? "size")) eqn:F2; [|destruct (f =? "listAppend") eqn:F3;
        [|destruct (f =? "listGet") eqn:F4; [|destruct (f =? "operator[]") eqn:F5]]]]; cbn [orb] in *.
      * destruct ts; [|discriminate]. injection CT as <-. destruct args; [|discriminate].
        ok V o Eo. injection V as <-. rewrite write_result_eq by auto. destruct (list_empty_ok S o Eo) as [OV EV].
        apply RW; auto. intros r c vs w _ H CV. destruct vs; [|discriminate]. injection CV as <-. apply EV.
      * destruct args as [|a []]; try discriminate V. ok V l El. destruct (is_list_type (o_ty l)); [|discriminate]. ok V o Eo. injection V as <-.
        rewrite write_result_eq by auto. cbn [mapO] in TS. destruct (opty an X a) as [ta|] eqn:TA; [|discriminate]. injection TS as <-.
        destruct ta as [| |[]| | | | |]; try discriminate CT. injection CT as <-.
        cbn [forallb] in CL. apply andb_true_iff in CL as [CL1 _]. destruct (operand_ok _ _ _ _ _ _ OS CL1 TA El) as [OL EL]. destruct (len_ok _ _ _ OL Eo) as [OV EV]. apply RW; auto.
        intros r c vs w L H CV. cbn [mapO] in H. destruct (getv c a) as [va|] eqn:GA; [|discriminate]. injection H as <-.
        destruct va as [| |lv| |]; try discriminate CV. injection CV as <-. apply EV. now apply (EL r c _ L).
      * destruct args as [|a [|e []]]; try discriminate V. ok V l El. ok V y Ey. ok V o Eo. injection V as <-.
        rewrite write_result_eq by auto. cbn [mapO] in TS. destruct (opty an X a) as [ta|] eqn:TA; [|discriminate].
        destruct (opty an X e) as [te|] eqn:TE; [|discriminate]. injection TS as <-.
        destruct ta as [| |[]| | | | |]; try discriminate CT. destruct te; try discriminate CT. injection CT as <-.
        cbn [forallb] in CL. apply andb_true_iff in CL as [CL1 _]. destruct (operand_ok _ _ _ _ _ _ OS CL1 TA El) as [OL EL]. destruct (operand_int _ _ _ _ _ OS TE Ey) as [OE EE].
        unfold append in Eo. rewrite (ov_ty _ _ _ _ OL) in Eo. cbn [contained bindR] in Eo.
        assert (Eo' : o = {| o_ty := TList TInt; o_src := Node KCall (TList TInt) [Atom (PStr "list_append"); o_src l; o_src y] |}).
        { rewrite (ov_ty _ _ _ _ OE) in Eo. cbn in Eo. congruence. }
        subst o. destruct (append_call_ok _ _ _ OL OE) as [OV EV]. apply RW; auto.
        intros r c vs w L H CV. cbn [mapO] in H. destruct (getv c a) as [va|] eqn:GA; [|discriminate]. destruct (getv c e) as [ve|] eqn:GE; [|discriminate]. injection H as <-.
        destruct va as [| |lv| |]; try discriminate CV. injection CV as <-. apply EV; [now apply (EL r c _ L) | now apply (EE r c _ L)].
      * destruct args as [|a [|e []]]; try discriminate V. ok V l El. ok V y Ey. ok V o Eo. injection V as <-.
        rewrite write_result_eq by auto. cbn [mapO] in TS. destruct (opty an X a) as [ta|] eqn:TA; [|discriminate].
        destruct (opty an X e) as [te|] eqn:TE; [|discriminate]. injection TS as <-.
        destruct ta as [| |[]| | | | |]; try discriminate CT. destruct te; try discriminate CT. injection CT as <-.
        cbn [forallb] in CL. apply andb_true_iff in CL as [CL1 _]. destruct (operand_ok _ _ _ _ _ _ OS CL1 TA El) as [OL EL]. destruct (operand_int _ _ _ _ _ OS TE Ey) as [OE EE].
        destruct (get_ok _ _ _ _ OL OE Eo) as [OV EV]. apply RW; auto.
        intros r c vs w L H CV. cbn [mapO] in H. destruct (getv c a) as [va|] eqn:GA; [|discriminate]. destruct (getv c e) as [ve|] eqn:GE; [|discriminate]. injection H as <-.
        destruct va as [| |lv| |]; try discriminate CV. destruct ve as [z| | | |]; try discriminate CV. destruct (z <? 0)%Z eqn:N; [discriminate|].
        apply (EV r lv z w (EL r c _ L GA) (EE r c _ L GE) N CV).
      * destruct args as [|a [|e []]]; try discriminate V; destruct a as [a q| | |]; try discriminate V.
        ok V l El. ok V y Ey. ok V o Eo.
        cbn [mapO] in TS. destruct (opty an X (OName a q)) as [ta|] eqn:TA; [|discriminate].
        destruct (opty an X e) as [te|] eqn:TE; [|discriminate]. injection TS as <-.
        destruct ta as [| |[]| | | | |]; try discriminate CT. destruct te; try discriminate CT. injection CT as <-.
        cbn [forallb] in CL. apply andb_true_iff in CL as [CL1 _]. destruct (operand_ok _ _ _ _ _ _ OS CL1 TA El) as [OL EL]. destruct (operand_int _ _ _ _ _ OS TE Ey) as [OE EE].
        destruct (get_ok _ _ _ _ OL OE Eo) as [OV EV].
        destruct (sget_opty _ _ _ _ _ _ _ OS TA El) as [SG RT].
        assert (NE : (q, a) <> (p, x)). { intros E. rewrite E in RT. congruence. }
        assert (ST1 : stepped b (ICall x p f [OName a q; e] t) X ((p, x) :: X) S v (set_st v b (sset (st v b) (p, x) o))).
        { apply RW; auto. intros r c vs w L H CV. cbn [mapO] in H. destruct (getv c (OName a q)) as [va|] eqn:GA; [|discriminate]. destruct (getv c e) as [ve|] eqn:GE; [|discriminate]. injection H as <-.
          destruct va as [| |lv| |]; try discriminate CV. destruct ve as [z| | | |]; try discriminate CV. destruct (z <? 0)%Z eqn:N; [discriminate|].
          apply (EV r lv z w (EL r c _ L GA) (EE r c _ L GE) N CV). }
        rewrite write_result_eq in V by auto.
        assert (OS1 : okst S (st (set_st v b (sset (st v b) (p, x) o)) b)).
        { rewrite st_set_same. eapply okst_sets; eauto using sets_sset. eapply okval_obj; eauto. }
        assert (SG1 : sget (st (set_st v b (sset (st v b) (p, x) o)) b) (q, a) = Some l).
        { rewrite st_set_same, sget_other; auto. }
        destruct (set_where_ok S _ b q a l (TList TInt) v' OS1 RT) as (SB & T' & ES); auto; [congruence | rewrite (ov_ty _ _ _ _ OL); now apply label_reg |].
        destruct ST1 as (n & o1 & A1 & A2 & A3 & A4 & A5 & A6). cbn [defs1] in A1, D1.
        assert (n = (p, x)) by congruence. subst n. exists (p, x), o1. split; auto. split; [eapply same_trans; eauto|]. split; auto.
        assert (o1 = o). { pose proof (se_same _ _ _ _ A4) as Q. rewrite st_set_same, sget_same in Q. congruence. } subst o1.
        rewrite ES. split; [rewrite st_set_same; eapply sets_twice; eauto|]. split; auto.
        intros r c out L ST. destruct (A6 r c out L ST) as (c' & -> & L'). exists c'. split; auto.
        intros m IN. destruct (L' m IN) as (om & w & B1 & B2 & B3). exists om, w. split; auto.
        destruct (name_dec m (q, a)) as [->|NM]; [rewrite sget_same; congruence | rewrite sget_other; auto].
      * rewrite PB, VE in V. destruct (smem f maths) eqn:FM.
        -- destruct ts as [|t1 []]; try discriminate CT. injection CT as <-.
           assert (OM : smem f other_models = true /\ (f =? "set_create") = false /\ (f =? "set_add") = false /\ (f =? "set_remove") = false /\
                        (f =? "MakeTuple") = false /\ (f =? "tupleGet") = false /\ (f =? "integer_sqrt") || (f =? "integer_exp") = true).
           { unfold maths in FM. apply smem_in in FM. cbn in FM. destruct FM as [<-|[<-|[]]]; repeat split. }
           destruct OM as (OM & Q1 & Q2 & Q3 & Q4 & Q5 & Q6). rewrite OM in V. unfold other_call in V. rewrite Q1, Q2, Q3, Q4, Q5, Q6 in V.
           destruct args as [|a [|a2 args]]; [discriminate TS| |exfalso; clear - TS; cbn [mapO] in TS;
             destruct (opty an X a); [|discriminate]; destruct (opty an X a2); [|discriminate]; destruct (mapO (opty an X) args); discriminate].
           ok V o Eo. ok Eo o' Eo'. apply call_ok in Eo. subst o. injection V as <-.
           rewrite write_result_eq by auto. cbn [mapO] in TS. destruct (opty an X a) as [ta|] eqn:TA; [|discriminate]. injection TS as <-.
           cbn [forallb] in CL. apply andb_true_iff in CL as [CL1 _]. destruct (operand_ok _ _ _ _ _ _ OS CL1 TA Eo') as [OL EL].
           assert (FU : smem f (uninterp ++ maths) = true). { apply smem_true, in_or_app. right. now apply smem_in. }
           apply RW.
           ++ apply (call_okval S f TInt [o']); [constructor; [apply (gv_good _ _ _ (ov_good _ _ _ _ OL)) | constructor]|].
              intros r F. destruct (ov_val _ _ _ _ OL r F) as (w & E & _). cbn [map mapO]. rewrite E. destruct (UNI f [w] FU) as [-> [z ->]]. exists (VInt z). auto.
           ++ intros r c vs w L H CV. cbn [mapO] in H. destruct (getv c a) as [va|] eqn:GA; [|discriminate]. injection H as <-.
              cbn [o_src eval map]. change (match mapO (eval I r) [o_src o'] with Some vs => i_call I f vs | None => None end = Some w).
              cbn [mapO]. rewrite (EL r c _ L GA). destruct (UNI f [va] FU) as [-> _]. exact CV.
        -- destruct (smem f other_models); [rewrite andb_false_r in CT; discriminate|].
        destruct (smem f uninterp) eqn:FU0; [|discriminate]. cbn [andb orb negb] in CT, V. destruct t; try discriminate CT. injection CT as <-.
        assert (FU : smem f (uninterp ++ maths) = true). { apply smem_true, in_or_app. left. now apply smem_in. }
        ok V os Eos. ok V o Eo. injection V as <-. apply call_ok in Eo. subst o.
        destruct (operands_ok _ _ _ _ OS CL _ _ TS Eos) as [OVs EVs].
        match goal with |- stepped _ _ _ _ _ _ (set_st v b (if p then write_ptr ?s x ?o else write_prim ?s x ?o)) =>
          replace (if p then write_ptr s x o else write_prim s x o) with (sset (st v b) (p, x) o) by (destruct p; reflexivity) end.
        apply RW.
        ++ apply call_okval.
           ** clear - OVs. induction OVs; constructor; auto. eapply gv_good, ov_good; eauto.
           ** intros r F. assert (M : exists vs, mapO (eval I r) (map o_src os) = Some vs).
              { clear - OVs F. induction OVs as [|ta oa ts' os' OV OVs [vs IH]]; [exists []; reflexivity|].
                destruct (ov_val _ _ _ _ OV r F) as (w & E & _). exists (w :: vs). cbn [map mapO]. now rewrite E, IH. }
              destruct M as [vs ->]. destruct (UNI f vs FU) as [-> [z ->]]. exists (VInt z). auto.
        ++ intros r c vs w L H CV. cbn [o_src eval]. 
           change (match mapO (eval I r) (map o_src os) with Some vs => i_call I f vs | None => None end = Some w).
           rewrite (EVs r c vs L H). destruct (UNI f vs FU) as [-> _]. exact CV.
Qed.
End Instr.
