(** Proofs about the Python frontend, part 3: statements without loops, what they
    do to the symbolic state. *)

From Coq Require Import String List ZArith Bool Lia.
From Verif Require Import Ast Semantics Dict IrProofs IrProofs3 IrProofs6 UtilModel UtilProofs ObjModel PyModel PySem PyProofs PyProofs2.
Import ListNotations.
Local Open Scope Z_scope.
Local Open Scope string_scope.
Local Open Scope list_scope.

Section StmtInd.
  Variable P : stmt -> Prop.
  Hypothesis H1 : forall xs e, P (SAssign xs e).
  Hypothesis H2 : forall e, P (SExpr e).
  Hypothesis H3 : forall id c b, Forall P b -> P (SWhile id c b).
  Hypothesis H4 : forall e, P (SReturn e).
  Hypothesis H5 : forall c b e, Forall P b -> Forall P e -> P (SIf c b e).
  Hypothesis H6 : P SOther.
  Fixpoint stmt_ind' (s : stmt) : P s :=
    let go := fix go (l : list stmt) : Forall P l :=
      match l with [] => Forall_nil P | x :: r => Forall_cons x (stmt_ind' x) (go r) end in
    match s with
    | SAssign xs e => H1 xs e
    | SExpr e => H2 e
    | SWhile id c b => H3 id c b (go b)
    | SReturn e => H4 e
    | SIf c b e => H5 c b e (go b) (go e)
    | SOther => H6
    end.
End StmtInd.

(** ** Dictionaries *)

Lemma dset_keys V (d : dict V) k v x : In x (dkeys (dset d k v)) <-> x = k \/ In x (dkeys d).
Proof.
  induction d as [|[k' v'] d IH]; simpl; [intuition|].
  destruct (String.eqb k k') eqn:E; simpl.
  - apply String.eqb_eq in E. subst. intuition.
  - rewrite IH. intuition.
Qed.

Lemma dset_nodup V (d : dict V) k v : NoDup (dkeys d) -> NoDup (dkeys (dset d k v)).
Proof.
  induction d as [|[k' v'] d IH]; simpl; intros N; [constructor; auto|].
  inversion N as [|? ? NI N']; subst. destruct (String.eqb k k') eqn:E; simpl.
  - constructor; auto.
  - constructor; auto. intros IN. apply dset_keys in IN. apply String.eqb_neq in E. destruct IN; [congruence | auto].
Qed.

Lemma dget_in V (d : dict V) k v : dget d k = Some v -> In (k, v) d.
Proof.
  induction d as [|[k' v'] d IH]; simpl; [discriminate|]. destruct (String.eqb k k') eqn:E.
  - apply String.eqb_eq in E. intros H. injection H as <-. subst. auto.
  - auto.
Qed.

Lemma dget_key V (d : dict V) k v : dget d k = Some v -> In k (dkeys d).
Proof. intros H. apply dget_in in H. unfold dkeys. apply in_map_iff. exists (k, v). auto. Qed.

Lemma dmem_some V (d : dict V) k : dmem d k = true <-> exists v, dget d k = Some v.
Proof. unfold dmem. destruct (dget d k); split; intros; eauto; try discriminate. destruct H; discriminate. Qed.

Lemma nodup_dget V (d : dict V) k v : NoDup (dkeys d) -> In (k, v) d -> dget d k = Some v.
Proof.
  induction d as [|[k' v'] d IH]; simpl; intros N IN; [contradiction|].
  inversion N as [|? ? NI N']; subst. destruct IN as [E|IN].
  - injection E as -> ->. now rewrite String.eqb_refl.
  - destruct (String.eqb k k') eqn:E; auto. apply String.eqb_eq in E. subst. exfalso. apply NI.
    unfold dkeys. apply in_map_iff. exists (k', v). auto.
Qed.

(** ** Shapes *)

Lemma not_ok c e : mkNot [c] = Ok e -> e = Node KNot TBool [c].
Proof. unfold mkNot. intros H. ok H u E. congruence. Qed.
Lemma implies_ok a b e : mkImplies [a; b] = Ok e -> e = Node KImplies TBool [a; b].
Proof. unfold mkImplies. intros H. ok H u E. congruence. Qed.
Lemma ite_ok c a b o : ite c a b = Ok o -> exists t, o = {| o_ty := o_ty a; o_src := Node KIte t [o_src c; o_src a; o_src b] |}.
Proof.
  unfold ite, mkIte. intros H. ok H e E. apply create_ok in H. ok E tc Ec.
  destruct (negb (ty_eqb tc TBool)); [discriminate|]. ok E ta Ea. ok E tb Eb. destruct (ty_eqb ta tb); [|discriminate].
  injection E as <-. eauto.
Qed.

Lemma good_not S c : good S c -> good S (Node KNot TBool [c]).
Proof. intros [P V]. split; simpl; [now rewrite P | now rewrite app_nil_r]. Qed.

Lemma good3 S t a b c : good S a -> good S b -> good S c -> good S (Node KIte t [a; b; c]).
Proof.
  intros [Pa Va] [Pb Vb] [Pc Vc]. split; simpl.
  - now rewrite Pa, Pb, Pc.
  - rewrite app_nil_r. repeat apply incl_app; auto.
Qed.

Lemma goods_plain S l : Forall (good S) l -> Forall (fun e => plain e = true) l.
Proof. apply Forall_impl. intros e [P _]. exact P. Qed.

Lemma under_ok S s e a : under_precond s e = Ok a -> Forall (good S) (precond s) -> good S e -> good S a.
Proof.
  unfold under_precond. destruct (precond s) as [|p ps]; [congruence|]. intros H F E.
  ok H c Ec. ok H i Ei. apply bool_obj in H. apply implies_ok in Ei. subst.
  apply good2; try congruence; auto. eapply (objects_good KAnd); eauto. left; auto.
Qed.

Lemma under_true I S r s e a : under_precond s e = Ok a -> Forall (good S) (precond s) ->
  Forall (fun e => eval I r e = Some (VBool true)) (precond s) -> eval I r a = Some (VBool true) ->
  eval I r e = Some (VBool true).
Proof.
  unfold under_precond. destruct (precond s) as [|p ps]; [congruence|]. intros H F T E.
  ok H c Ec. ok H i Ei. apply bool_obj in H. apply implies_ok in Ei. subst.
  pose proof (and_true I r _ _ Ec (goods_plain _ _ F) T) as C. cbn [eval mapO] in E. rewrite C in E.
  destruct (eval I r e) as [[]|]; cbn in E; try discriminate. congruence.
Qed.

Lemma merge_asserts_eq es : forall acc, merge_asserts acc es =
  acc ++ match acc, es with [], e :: _ => [e] | _, _ => [] end.
Proof.
  induction es as [|e es IH]; intros acc; cbn [merge_asserts].
  - destruct acc; now rewrite ?app_nil_r.
  - destruct acc as [|a acc]; cbn [in_asserts]; rewrite IH; cbn; auto.
Qed.

Lemma ety_writes G uninterp e : forall t, ety G uninterp e = Some t -> expr_writes e = [].
Proof.
  assert (L : forall es, Forall (fun e => forall t, ety G uninterp e = Some t -> expr_writes e = []) es ->
            forall ts, mapO (ety G uninterp) es = Some ts -> flat_map expr_writes es = []).
  { induction 1 as [|e0 es He _ IH]; intros ts M; [reflexivity|]. cbn [mapO] in M.
    destruct (ety G uninterp e0) as [t|] eqn:E; [|discriminate]. destruct (mapO (ety G uninterp) es); [|discriminate].
    cbn [flat_map]. rewrite (He t eq_refl), (IH _ eq_refl). reflexivity. }
  induction e as [z|x|ops es IH|op l r IHl IHr|es IH|b i IHb IHi|es IH|op e IHe|f es mt IH|c m es IHc IH] using pexpr_ind';
    intros t E; cbn [ety] in E; cbn [expr_writes]; auto.
  - destruct ops as [|op [|]]; try discriminate. destruct es as [|a [|b [|]]]; try discriminate.
    inversion IH as [|? ? IHa IH1]; subst. inversion IH1 as [|? ? IHb IH2]; subst.
    destruct (ety G uninterp a) as [ta|] eqn:Ta; try discriminate.
    destruct (ety G uninterp b) as [tb|] eqn:Tb; try (destruct ta; discriminate).
    cbn [flat_map]. rewrite (IHa _ eq_refl), (IHb _ eq_refl). reflexivity.
  - destruct (ety G uninterp l) as [ta|] eqn:Ta; try discriminate.
    destruct (ety G uninterp r) as [tb|] eqn:Tb; try (destruct ta; discriminate).
    now rewrite (IHl _ eq_refl), (IHr _ eq_refl).
  - destruct (mapO (ety G uninterp) es) eqn:M; [|discriminate]. eauto.
  - destruct (ety G uninterp b) as [tb|] eqn:Tb; try discriminate.
    destruct (ety G uninterp i) as [ti|] eqn:Ti.
    + now rewrite (IHb _ eq_refl), (IHi _ eq_refl).
    + rewrite (IHb _ eq_refl). destruct tb as [| |[]| | | | |]; try discriminate. destruct i; try discriminate; auto.
  - destruct es; [reflexivity | discriminate].
  - destruct (ety G uninterp e); [|discriminate]. eauto.
  - destruct (mapO (ety G uninterp) es) eqn:M; [|discriminate]. eauto.
  - discriminate.
Qed.

Lemma list_expr G uninterp e u : ety G uninterp e = Some (TList u) -> (exists x, e = EName x) \/ e = EList [].
Proof.
  destruct e as [z|x|ops es|op e1 e2|es|e1 e2|es|op e|f es t|c m es]; cbn [ety]; intros H; eauto;
    try (destruct es; [now right | discriminate]); exfalso.
  - discriminate.
  - destruct ops as [|? []]; try discriminate. destruct es as [|a [|b []]]; try discriminate.
    destruct (ety G uninterp a) as [[]|]; try discriminate. destruct (ety G uninterp b) as [[]|]; try discriminate.
    destruct (smem _ _); discriminate.
  - destruct (ety G uninterp e1) as [[]|]; try discriminate; destruct (ety G uninterp e2) as [[]|]; try discriminate;
      destruct (smem _ _); discriminate.
  - destruct (mapO _ _); [|discriminate]. destruct (forallb _ _); discriminate.
  - destruct (ety G uninterp e1) as [[| |[]| | | |ts|]|]; try discriminate.
    + destruct (ety G uninterp e2) as [[]|]; discriminate.
    + assert (X : forall z, (if (z <? 0)%Z then None else match nth_error ts (Z.to_nat z) with
                 | Some t => if prim t then Some t else None | None => None end) <> Some (TList u)).
      { intros z. destruct (z <? 0)%Z; [discriminate|]. destruct (nth_error _ _) as [t|]; [|discriminate].
        destruct (prim t) eqn:P; [|discriminate]. intros H'. injection H' as ->. discriminate. }
      destruct (ety G uninterp e2) as [t|]; destruct e2; try discriminate; try (apply (X _ H)); destruct t; try discriminate; apply (X _ H).
  - destruct (ety G uninterp e) as [[]|]; try discriminate. destruct (op =? "-"); discriminate.
  - destruct (mapO _ _) as [ts|]; [|discriminate]. destruct t; try discriminate. destruct (f =? "len").
    + destruct ts as [|[| |[]| | | | |] []]; discriminate.
    + destruct (smem _ _); discriminate.
Qed.

Section Stmt.
Variables (I : interp) (U : string -> list val -> option val) (G : dict ty) (uninterp : list string).
Hypothesis LIB : library I.
Hypothesis UNI : forall f vs, smem f uninterp = true -> i_call I f vs = U f vs /\ exists z, U f vs = Some (VInt z).
Hypothesis SIMPLE : forallb (fun p => simple_type (snd p)) G = true.
Variables (fn : string) (fargs : list obj) (types : dict mtype) (params : list string).

Notation VE := (vexpr uninterp).
Notation VS := (vstmt fn fargs uninterp types).
Notation VB := (runS (vstmt fn fargs uninterp types)).
Notation Static := (Static I G).

Lemma g_simple x t : dget G x = Some t -> simple_type t = true.
Proof. intros H. apply dget_in in H. rewrite forallb_forall in SIMPLE. apply (SIMPLE _ H). Qed.

Lemma static_write S r d x o : Static S r d -> dget G x = Some (o_ty o) -> good S (o_src o) ->
  (forall u y, o_ty o = TList u -> var_name o = Ok y -> y = x) ->
  (exists v, eval I r (o_src o) = Some v /\ of_type (o_ty o) v = true) -> Static S r (dset d x o).
Proof.
  intros [N ST] T GD NM V. split; [now apply dset_nodup|]. intros y p D. rewrite dget_dset in D.
  destruct (String.eqb y x) eqn:E.
  - injection D as <-. apply String.eqb_eq in E. subst. auto.
  - auto.
Qed.

Definition step_ok (S : list string) (r : env) (s s' : state) (W : list string) (n : nat) : Prop :=
  Static S r (vars s') /\ precond s' = precond s /\
  (forall x o', dget (vars s') x = Some o' -> ~ In x W ->
     exists o, dget (vars s) x = Some o /\ eval I r (o_src o') = eval I r (o_src o)) /\
  (forall x, dmem (vars s) x = true -> dmem (vars s') x = true) /\
  (Forall (fun e => plain e = true) (asserts s) -> Forall (fun e => plain e = true) (asserts s')) /\
  exists new, asserts s' = asserts s ++ new /\ (length new <= n)%nat.

Lemma step_trans S r s s1 s2 W1 W2 n1 n2 : step_ok S r s s1 W1 n1 -> step_ok S r s1 s2 W2 n2 ->
  step_ok S r s s2 (W1 ++ W2) (n1 + n2).
Proof.
  intros (_ & P1 & F1 & M1 & A1 & l1 & E1 & L1) (ST2 & P2 & F2 & M2 & A2 & l2 & E2 & L2).
  split; auto. split; [congruence|]. split.
  { intros x o' D NI. rewrite in_app_iff in NI. destruct (F2 x o' D) as (o & D1 & E); [tauto|].
    destruct (F1 x o D1) as (o0 & D0 & E0); [tauto|]. exists o0. split; auto. congruence. }
  split; auto. split; auto. exists (l1 ++ l2). rewrite E2, E1, app_assoc, app_length. split; auto. lia.
Qed.

Lemma step_same S r s : Static S r (vars s) -> step_ok S r s s [] 0.
Proof.
  intros ST. split; auto. split; auto. split; [eauto|]. split; auto. split; auto.
  exists []. rewrite app_nil_r. auto.
Qed.

Lemma step_write S r s x o : Static S r (vars s) -> Static S r (dset (vars s) x o) -> step_ok S r s (write s x o) [x] 0.
Proof.
  intros ST ST'. split; auto. split; auto. split.
  { intros y o' D NI. cbn [write vars] in D. rewrite dget_dset in D. destruct (String.eqb y x) eqn:E.
    - apply String.eqb_eq in E. subst. exfalso. apply NI. left; auto.
    - eauto. }
  split; [|split; auto; exists []; cbn; rewrite app_nil_r; auto].
  intros y. cbn. unfold dmem. rewrite dget_dset. destruct (String.eqb y x); auto.
Qed.

(** *** Merging the branches of an if *)

Lemma merge_vars_spec cond cs a : forall acc d, NoDup (dkeys cs) -> NoDup (dkeys acc) -> merge_vars cond cs a acc = Ok d ->
  NoDup (dkeys d) /\
  (forall x, dget cs x = None -> dget d x = dget acc x) /\
  (forall x c_e, dget cs x = Some c_e -> exists a_e o, dget a x = Some a_e /\ dget d x = Some o /\
     (if obj_ne c_e a_e then ite cond c_e a_e else Ok c_e) = Ok o).
Proof.
  induction cs as [|[v ce] cs IH]; intros acc d N NA M; cbn [merge_vars] in M.
  - injection M as <-. split; auto. split; [auto | intros; discriminate].
  - destruct (dget a v) as [ae|] eqn:A; [|discriminate]. ok M o Eo.
    inversion N as [|? ? NI N']; subst.
    destruct (IH _ _ N' (dset_nodup _ acc v o NA) M) as (ND & D1 & D2). split; auto. split.
    + intros x D. cbn in D. destruct (String.eqb x v) eqn:E; [discriminate|]. rewrite D1 by auto.
      rewrite dget_dset. now rewrite E.
    + intros x c_e D. cbn in D. destruct (String.eqb x v) eqn:E; [|auto].
      injection D as <-. apply String.eqb_eq in E. subst x. exists ae, o. split; auto. split; auto.
      rewrite D1, dget_dset, String.eqb_refl; auto.
      destruct (dget cs v) eqn:DV; auto. exfalso. apply NI. eapply dget_key; eauto.
Qed.

(** the merged object: the condition evaluates to a boolean *)
Lemma merged_static S r cond ce ae o x b : eval I r (o_src cond) = Some (VBool b) -> good S (o_src cond) ->
  dget G x = Some (o_ty ce) -> dget G x = Some (o_ty ae) -> good S (o_src ce) -> good S (o_src ae) ->
  (forall u y, o_ty ce = TList u -> var_name ce = Ok y -> y = x) ->
  (exists v, eval I r (o_src ce) = Some v /\ of_type (o_ty ce) v = true) ->
  (exists v, eval I r (o_src ae) = Some v /\ of_type (o_ty ae) v = true) ->
  (if obj_ne ce ae then ite cond ce ae else Ok ce) = Ok o ->
  dget G x = Some (o_ty o) /\ good S (o_src o) /\
  (forall u y, o_ty o = TList u -> var_name o = Ok y -> y = x) /\
  (exists v, eval I r (o_src o) = Some v /\ of_type (o_ty o) v = true).
Proof.
  intros EC GC T1 T2 G1 G2 NM V1 V2 M. destruct (obj_ne ce ae).
  - apply ite_ok in M as (t & ->). cbn [o_ty o_src]. split; auto. split; [now apply good3|].
    split; [intros u y _ H; discriminate|]. cbn [eval mapO]. rewrite EC.
    assert (o_ty ae = o_ty ce) as E by congruence. rewrite E in V2. destruct b; auto.
  - injection M as <-. auto.
Qed.

(** what the merged object stands for *)
Lemma merged_value S r cond ce ae o b : eval I r (o_src cond) = Some (VBool b) ->
  good S (o_src ce) -> good S (o_src ae) -> simple_type (o_ty ce) = true ->
  (forall u, o_ty ce = TList u -> eval I r (o_src ce) = eval I r (o_src ae)) ->
  (if obj_ne ce ae then ite cond ce ae else Ok ce) = Ok o ->
  eval I r (o_src o) = if b then eval I r (o_src ce) else eval I r (o_src ae).
Proof.
  intros EC [G1 _] [G2 _] SI LI M. destruct (obj_ne ce ae) eqn:NE.
  - apply ite_ok in M as (t & ->). cbn [o_src eval mapO]. rewrite EC. destruct b; reflexivity.
  - injection M as <-. unfold obj_ne in NE.
    assert (E : eval I r (o_src ce) = eval I r (o_src ae)).
    { destruct (o_ty ce) as [| |u| | | |ts|]; try discriminate.
      - eauto.
      - apply negb_false_iff in NE. apply (equal_same_value I); auto. now apply plain_agree. }
    rewrite <- E. now destruct b.
Qed.

Lemma counts_cons st b : counts (st :: b) = (count st + counts b)%nat.
Proof. reflexivity. Qed.

Hypothesis FARGS : forall S, incl params S -> Forall (good S) (map o_src fargs).

(** lists are not written inside an if *)
Lemma no_list_writes st : ok_stmt G uninterp params true st = true -> forall x u, In x (stmt_writes st) -> dget G x <> Some (TList u).
Proof.
  induction st as [xs e|e|id c b IH|e|c b els IHb IHe|] using stmt_ind'; intros OK x u IN; cbn [ok_stmt stmt_writes] in *.
  - destruct xs as [|y []]; try discriminate. destruct (ety G uninterp e) as [t|] eqn:E; [|discriminate].
    destruct (dget G y) as [t'|] eqn:D; [|discriminate]. rewrite (ety_writes _ _ _ _ E), app_nil_r in IN.
    destruct IN as [<-|[]]. intros D'. apply andb_true_iff in OK as [T L]. apply ty_eqb_eq in T. subst t'.
    rewrite D in D'. injection D' as ->. destruct e; discriminate.
  - destruct (ety G uninterp e) as [t|] eqn:E; [now rewrite (ety_writes _ _ _ _ E) in IN|].
    destruct e; try discriminate. destruct e; try discriminate. destruct args as [|? []]; try discriminate.
    rewrite andb_false_r in OK. discriminate.
  - destruct (ety G uninterp c) as [[]|] eqn:E; try discriminate. rewrite (ety_writes _ _ _ _ E) in IN. cbn in IN.
    apply in_flat_map in IN as (st & INs & INx). rewrite forallb_forall in OK. rewrite Forall_forall in IH. eapply IH; eauto.
  - destruct (ety G uninterp e) as [t|] eqn:E; [|discriminate]. now rewrite (ety_writes _ _ _ _ E) in IN.
  - destruct (ety G uninterp c) as [[]|] eqn:E; try discriminate. rewrite (ety_writes _ _ _ _ E) in IN. cbn in IN.
    apply andb_true_iff in OK as [O1 O2]. rewrite forallb_forall in O1, O2. rewrite Forall_forall in IHb, IHe.
    apply in_app_iff in IN as [IN|IN]; apply in_flat_map in IN as (st & INs & INx); eauto.
  - contradiction.
Qed.

(** *** Statements without loops *)

Definition lfs (st : stmt) : Prop := forall S r in_if g s g' s',
  (count st <= 1)%nat -> ok_stmt G uninterp params in_if st = true -> incl params S ->
  Static S r (vars s) -> Forall (good S) (precond s) ->
  VS st (g, s) = Ok (g', s') ->
  g' = g /\ step_ok S r s s' (stmt_writes st) (count st).

Lemma lfs_block b : Forall lfs b -> forall S r in_if g s g' s',
  (counts b <= 1)%nat -> forallb (ok_stmt G uninterp params in_if) b = true -> incl params S ->
  Static S r (vars s) -> Forall (good S) (precond s) ->
  VB b (g, s) = Ok (g', s') ->
  g' = g /\ step_ok S r s s' (flat_map stmt_writes b) (counts b).
Proof.
  induction 1 as [|st b Hs _ IH]; intros S r in_if g s g' s' C OK SUB ST PC V; cbn [runS] in V.
  - injection V as <- <-. split; auto. now apply step_same.
  - rewrite counts_cons in *. cbn [forallb] in OK. apply andb_true_iff in OK as [O1 O2].
    ok V gs E1. destruct gs as [g1 s1].
    destruct (Hs S r in_if g s g1 s1) as (-> & S1); auto; [lia|].
    destruct (IH S r in_if g s1 g' s') as (-> & S2); auto; [lia | apply S1 | now rewrite (proj1 (proj2 S1)) |].
    split; auto. cbn [flat_map]. eapply step_trans; eauto.
Qed.

Lemma lfs_all st : lfs st.
Proof.
  induction st as [xs e|e|id c b IH|e|c b els IHb IHe|] using stmt_ind'; intros S r in_if g s g' s' CN OK SUB ST PC V;
    cbn [ok_stmt] in OK; cbn [vstmt fst snd] in V.
  - (* assignment *)
    destruct xs as [|x []]; try discriminate. ok V p Ep. injection V as <- <-. destruct p as [o s1]. cbn [fst snd] in *.
    destruct (ety G uninterp e) as [t|] eqn:Et; [|discriminate]. destruct (dget G x) as [t'|] eqn:D; [|discriminate].
    apply andb_true_iff in OK as [T L]. apply ty_eqb_eq in T. subst t'.
    destruct (vexpr_sound I U G uninterp LIB UNI S r e s ST t o s1 Ep Et) as (-> & To & Go & v & Ev & Tv & _).
    split; auto. cbn [stmt_writes]. rewrite (ety_writes _ _ _ _ Et), app_nil_r. apply step_write; auto.
    apply static_write; auto; [congruence| |exists v; split; congruence].
    intros u y TL VN. rewrite To in TL. rewrite TL in *. destruct (list_expr _ _ _ _ Et) as [(z & ->)| ->]; [discriminate|].
    cbn [vexpr] in Ep. ok Ep q Eq0. injection Ep as <-. unfold list_empty in Eq0. ok Eq0 e1 Ee1. apply create_ok in Eq0.
    subst q. injection Ee1 as <-. discriminate.
  - (* expression statement *)
    destruct (ety G uninterp e) as [t|] eqn:Et.
    + ok V p Ep. injection V as <- <-. destruct p as [o s1]. cbn [fst snd] in *.
      destruct (vexpr_sound I U G uninterp LIB UNI S r e s ST t o s1 Ep Et) as (-> & _).
      split; auto. cbn [stmt_writes]. rewrite (ety_writes _ _ _ _ Et). now apply step_same.
    + destruct e as [| | | | | | | | |ce m es]; try discriminate. destruct ce as [|x| | | | | | | |]; try discriminate.
      destruct es as [|e []]; try discriminate.
      apply andb_true_iff in OK as [OK TY]. apply andb_true_iff in OK as [OK NP]. apply andb_true_iff in OK as [OK NI].
      apply String.eqb_eq in OK. subst m. destruct (dget G x) as [[| |[]| | | | |]|] eqn:D; try discriminate.
      destruct (ety G uninterp e) as [[]|] eqn:Ee; try discriminate.
      cbn [vexpr String.eqb Ascii.eqb Bool.eqb] in V. ok V p Ep. injection V as <- <-. destruct p as [o s1]. cbn [fst snd] in *.
      ok Ep q Eqq. ok Eqq o1 Er. injection Eqq as <-. cbn [fst snd] in *. unfold read in Er.
      destruct (dget (vars s) x) as [o2|] eqn:DX; [|discriminate]. injection Er as <-.
      destruct (negb (is_list_type (o_ty o2))); [discriminate|].
      ok Ep q Eqq. cbn [mapS] in Eqq. ok Eqq q1 Eqq1. ok Eqq q2 Eqq2. injection Eqq2 as <-. injection Eqq as <-.
      destruct q1 as [a s2]. cbn [fst snd one] in *. cbn [bindR] in Ep.
      destruct (vexpr_sound I U G uninterp LIB UNI S r e s ST TInt a s2 Eqq1 Ee) as (-> & Ta & Ga & va & Eva & Tva & _).
      ok Ep y Ey. ok Ep l El. injection Ep as <- <-.
      destruct (proj2 ST x o2 DX) as (T2 & G2 & NM & v & Ev & Tv). assert (o_ty o2 = TList TInt) as T by congruence.
      assert (y = x) by (eapply NM; eauto). subst y. split; auto. cbn [stmt_writes expr_writes String.eqb Ascii.eqb Bool.eqb orb app flat_map].
      rewrite (ety_writes _ _ _ _ Ee). cbn [app]. apply step_write; auto.
      unfold append in El. rewrite T in El. cbn [contained bindR] in El. rewrite Ta in El. cbn [ty_eqb] in El.
      apply call_ok in El. subst l. apply static_write; cbn [o_ty o_src]; auto.
      * apply good_call. repeat constructor; auto; apply G2 || apply Ga.
      * intros u y _ H. discriminate.
      * rewrite T in Tv. pose proof Tv as Tv'. apply of_list in Tv' as (lv & ->). apply of_int in Tva as (z & ->).
        exists (VList (lv ++ [VInt z])). cbn [eval mapO map]. rewrite Ev, Eva. rewrite (lib_append I LIB). split; auto.
        cbn. cbn in Tv. now rewrite forallb_app, Tv.
  - (* loops are excluded *)
    cbn [count] in CN. lia.
  - (* return *)
    destruct (dget (g_post g) fn) as [p|]; [|discriminate]. ok V q Eqq. ok V ps Eps. ok V a Ea. injection V as <- <-.
    destruct q as [o s1]. cbn [fst snd] in *. destruct (ety G uninterp e) as [t|] eqn:Et; [|discriminate].
    destruct (vexpr_sound I U G uninterp LIB UNI S r e s ST t o s1 Eqq Et) as (-> & To & Go & _).
    split; auto. cbn [stmt_writes]. rewrite (ety_writes _ _ _ _ Et).
    apply call_ok in Eps. subst ps. cbn [o_src] in Ea.
    assert (GA : good S a).
    { eapply under_ok; eauto. apply good_call. rewrite map_app. apply Forall_app. split; auto. now constructor. }
    split; auto. split; auto. split; [cbn; eauto|]. split; auto. split.
    + cbn. intros F. apply Forall_app. split; auto. constructor; auto. apply GA.
    + exists [a]. split; auto.
  - (* if *)
    destruct (ety G uninterp c) as [[]|] eqn:Et; try discriminate. apply andb_true_iff in OK as [OB OE].
    ok V p Ep. destruct p as [oc s1]. cbn [fst snd] in *.
    destruct (vexpr_sound I U G uninterp LIB UNI S r c s ST TBool oc s1 Ep Et) as (-> & Tc & Gc & vc & Evc & Tvc & _).
    rewrite Tc in V. cbn [ty_eqb negb] in V. ok V nc Enc. apply not_ok in Enc. subst nc.
    ok V x Ex. ok V y Ey. ok V s2 Es2. injection V as <- <-. destruct x as [gx sx], y as [gy sy]. cbn [fst snd] in *.
    cbn [count] in CN. change (list_sum (map count b)) with (counts b) in *. change (list_sum (map count els)) with (counts els) in *.
    destruct (lfs_block b IHb S r true g (add_precond s (o_src oc)) gx sx) as (-> & Sb); auto; [lia | |].
    { cbn. apply Forall_app. split; auto. }
    destruct (lfs_block els IHe S r true g (add_precond s (Node KNot TBool [o_src oc])) gy sy) as (-> & Se); auto; [lia | |].
    { cbn. apply Forall_app. split; auto. constructor; auto. now apply good_not. }
    split; auto. cbn [stmt_writes]. rewrite (ety_writes _ _ _ _ Et). cbn [app count].
    change (list_sum (map count b)) with (counts b). change (list_sum (map count els)) with (counts els).
    destruct Sb as (STb & _ & Fb & Mb & Ab & nb & Anb & Lb). destruct Se as (STe & _ & Fe & Me & Ae & ne & Ane & Le).
    cbn [add_precond asserts vars] in Fb, Mb, Ab, Anb, Fe, Me, Ae, Ane.
    apply of_bool in Tvc as (bc & ->).
    assert (AS : exists new : list expr, merge_asserts (asserts s) (asserts sx ++ asserts sy) = asserts s ++ new /\ (length new <= counts b + counts els)%nat /\ (Forall (fun e => plain e = true) (asserts s) ->
               Forall (fun e => plain e = true) (merge_asserts (asserts s) (asserts sx ++ asserts sy)))).
    { rewrite merge_asserts_eq. eexists. split; [reflexivity|]. split.
      - destruct (asserts s); [|cbn; lia]. rewrite Anb, Ane. destruct nb as [|? nb], ne as [|? ne]; cbn in *; lia.
      - intros F. apply Forall_app. split; auto. destruct (asserts s); [|constructor].
        specialize (Ab F). specialize (Ae F). assert (FF : Forall (fun e => plain e = true) (asserts sx ++ asserts sy)).
        { apply Forall_app. auto. }
        destruct (asserts sx ++ asserts sy); constructor; auto. now inversion FF. }
    destruct AS as (new & A1 & A2 & A3).
    unfold merge_if in Es2.
    destruct (has_returned sx) eqn:Rx, (has_returned sy) eqn:Ry.
    + injection Es2 as <-. cbn [vars precond asserts]. split; auto. split; auto. split; [cbn; eauto|]. split; auto. split; auto. eauto.
    + injection Es2 as <-. cbn [vars precond asserts set_vars]. split; auto. split; auto. split.
      { cbn [set_vars vars]. intros x o' D NI. apply (Fe x o' D). rewrite in_app_iff in NI. tauto. }
      split; auto. split; auto. exists new; auto.
    + injection Es2 as <-. cbn [vars precond asserts set_vars]. split; auto. split; auto. split.
      { cbn [set_vars vars]. intros x o' D NI. apply (Fb x o' D). rewrite in_app_iff in NI. tauto. }
      split; auto. split; auto. exists new; auto.
    + destruct (existsb _ _) eqn:EX; [discriminate|]. ok Es2 d Ed. injection Es2 as <-.
      destruct (merge_vars_spec oc (vars sx) (vars sy) (vars s) d (proj1 STb) (proj1 ST) Ed) as (ND & D1 & D2).
      cbn [vars precond asserts set_vars]. split; [|split; auto; split; [|split; [|split; auto; exists new; auto]]].
      * split; auto. cbn [set_vars vars]. intros x o D. destruct (dget (vars sx) x) as [ce|] eqn:DX.
        -- destruct (D2 x ce DX) as (ae & o' & DA & DD & MM). rewrite D in DD. injection DD as <-.
           destruct (proj2 STb x ce DX) as (T1 & G1 & NM1 & V1). destruct (proj2 STe x ae DA) as (T2 & G2 & NM2 & V2).
           apply (merged_static S r oc ce ae o x bc); auto.
        -- rewrite (D1 x DX) in D. apply (proj2 ST); auto.
      * cbn [set_vars vars]. intros x o' D NI. rewrite in_app_iff in NI. destruct (dget (vars sx) x) as [ce|] eqn:DX.
        -- destruct (D2 x ce DX) as (ae & o & DA & DD & MM). rewrite D in DD. injection DD as <-.
           destruct (Fb x ce DX) as (o1 & DS & E1); [tauto|]. destruct (Fe x ae DA) as (o2 & DS2 & E2); [tauto|].
           rewrite DS in DS2. injection DS2 as <-. exists o1. split; auto.
           destruct (obj_ne ce ae).
           ++ apply ite_ok in MM as (t & ->). cbn [o_src eval mapO]. rewrite Evc. destruct bc; auto.
           ++ injection MM as <-. auto.
        -- rewrite (D1 x DX) in D. eauto.
      * cbn [set_vars vars]. intros x MX. destruct (dget (vars sx) x) as [ce|] eqn:DX.
        -- destruct (D2 x ce DX) as (ae & o & DA & DD & MM). apply dmem_some. eauto.
        -- unfold dmem. rewrite (D1 x DX). exact MX.
  - discriminate.
Qed.

Lemma lfs_stmts b S r in_if g s g' s' :
  (counts b <= 1)%nat -> forallb (ok_stmt G uninterp params in_if) b = true -> incl params S ->
  Static S r (vars s) -> Forall (good S) (precond s) ->
  VB b (g, s) = Ok (g', s') ->
  g' = g /\ step_ok S r s s' (flat_map stmt_writes b) (counts b).
Proof. apply lfs_block. apply Forall_forall. intros st _. apply lfs_all. Qed.
End Stmt.
