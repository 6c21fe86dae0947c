(** Proofs about the LLVM frontend, part 5: an invariant of the visitor. *)

From Coq Require Import String List ZArith Bool Lia.
From Verif Require Import Ast Semantics Dict IrProofs IrProofs3 ObjModel UtilModel UtilProofs PyModel PySem PyProofs PyProofs2 PyProofs3 PyProofs4 LlModel LlSem LlProofs LlProofs2 LlProofs3 LlProofs4.
Import ListNotations.
Local Open Scope list_scope.

(** two loops have nothing to do with each other; a loop is inside another one *)
Definition sepd (p q : raw_loop * loop_info) : Prop :=
  (forall b, In b (loop_blocks (fst p)) -> ~ In b (loop_blocks (fst q))) /\
  (forall x, In x (lo_havocs (snd p)) -> ~ In x (lo_havocs (snd q))).
Definition within_loop (an : annot) (q p : raw_loop * loop_info) : Prop :=
  ~ In (rl_header (fst p)) (loop_blocks (fst q)) /\ incl (loop_blocks (fst q)) (loop_blocks (fst p)) /\
  incl (lo_havocs (snd q)) (lo_havocs (snd p)) /\
  forall n, In n (avail an (rl_header (fst p))) -> (fst n = true /\ In (snd n) (lo_havocs (snd p))) \/ In n (avail an (rl_header (fst q))).
Lemma sepd_sym p q : sepd p q -> sepd q p.
Proof. intros [A B]. split; intros x X Y; [apply (A x) | apply (B x)]; auto. Qed.
Lemma apart_ok p q : apart p q = true -> sepd p q.
Proof.
  unfold apart. intros H. apply andb_true_iff in H as [E1 E2]. rewrite forallb_forall in E1, E2. split.
  - intros b B. apply smem_not_in. specialize (E1 b B). now apply negb_true_iff in E1.
  - intros x X. apply smem_not_in. specialize (E2 x X). now apply negb_true_iff in E2.
Qed.
Lemma inside_ok an q p : inside an q p = true -> within_loop an q p.
Proof.
  unfold inside. intros H. rewrite !andb_true_iff, !forallb_forall, negb_true_iff in H. destruct H as [[[A B] C] D]. split; [|split; [|split]].
  - now apply smem_not_in.
  - intros b IN. apply smem_in. auto.
  - intros b IN. apply smem_in. auto.
  - intros n IN. specialize (D n IN). apply orb_true_iff in D as [D|D]; [|right; now apply nmem_in].
    apply andb_true_iff in D as [D1 D2]. left. split; auto. now apply smem_in.
Qed.
Lemma ok_pairs_ok an ps : ok_pairs an ps = true -> forall i j p q, nth_error ps i = Some p -> nth_error ps j = Some q -> i <> j ->
  sepd p q \/ within_loop an q p \/ within_loop an p q.
Proof.
  induction ps as [|p0 ps IH]; intros D i j p q Pi Pj N; [destruct i; discriminate|].
  cbn [ok_pairs] in D. apply andb_true_iff in D as [D1 D2]. rewrite forallb_forall in D1.
  assert (HD : forall q, In q ps -> sepd p0 q \/ within_loop an q p0 \/ within_loop an p0 q).
  { intros q' IN. specialize (D1 _ IN). rewrite !orb_true_iff in D1. destruct D1 as [[D1|D1]|D1]; auto using apart_ok, inside_ok. }
  destruct i as [|i], j as [|j]; cbn in Pi, Pj; try congruence.
  - injection Pi as <-. apply HD. eapply nth_error_In; eauto.
  - injection Pj as <-. destruct (HD p) as [|[|]]; auto using sepd_sym. eapply nth_error_In; eauto.
  - apply (IH D2 i j); auto.
Qed.

Lemma numbered_in los n lo : In (n, lo) (numbered los) <-> nth_error los n = Some lo.
Proof.
  unfold numbered. assert (H : forall k, In (n, lo) (combine (seq k (length los)) los) <-> k <= n /\ nth_error los (n - k) = Some lo).
  { induction los as [|l los IH]; intros k; cbn.
    - split; [intros [] | intros [_ H]; destruct (n - k); discriminate].
    - rewrite (IH (S k)). split.
      + intros [[= -> ->]|[A B]]; [split; [lia|]; now replace (n - n) with 0 by lia|]. split; [lia|].
        replace (n - k) with (S (n - S k)) by lia. exact B.
      + intros [A B]. destruct (Nat.eq_dec k n) as [->|N]; [replace (n - n) with 0 in B by lia; cbn in B; left; congruence|].
        right. split; [lia|]. replace (n - k) with (S (n - S k)) in B by lia. exact B. }
  rewrite (H 0). rewrite Nat.sub_0_r. split; [tauto | split; [lia | auto]].
Qed.

Section Run.
Variables (I : interp) (U : string -> list val -> option val) (an : annot) (uninterp : list string).
Hypothesis LIB : llibrary I.
Hypothesis UNI : forall f vs, smem f (uninterp ++ maths) = true -> i_call I f vs = U f vs /\ exists z, U f vs = Some (VInt z).
Variables (f : lfunc) (bs : list block) (los : list loop_info) (grammars : dict (list string * list obj)) (pre : list expr) (fargs : list obj).
Hypothesis SUP : lsupported an uninterp grammars f bs los (nonempty pre) = true.
Hypothesis GR : graph (lf_blocks f) bs los.
Hypothesis ML : Forall2 matches (lf_loops f) los.
Hypothesis SORT : sort_objs (lf_args f) = Ok fargs.
Hypothesis INVT : forall n vs, exists b, i_call I (inv_name (lf_name f) n) vs = Some (VBool b).
Definition argn : list string := arg_names f true ++ arg_names f false.
Hypothesis PRE : Forall (okcond I an argn) pre.

Notation fn := (lf_name f).
Notation rvn := (fn ++ "_rv")%string.
Notation sn := (sret_name f).
Notation okst := (okst I an sn).
Notation okobj := (okobj I an sn).
Notation Lk := (Lk I).
Notation typesok := (typesok an).
Notation G := (G an).
Notation tru := (tru I).

(** *** what [lsupported] says *)

Lemma sup_all : nodupb (map fst (lf_blocks f)) = true /\ ok_types an f = true /\ ok_order an bs = true /\ forallb (ok_avail an) bs = true /\
  forallb (ok_edges an uninterp sn bs los) bs = true /\ forallb (ok_bare an f bs los (nonempty pre)) bs = true /\
  forallb (ok_result an sn bs los) bs = true /\
  forallb (ok_loop an sn f bs los) (combine (lf_loops f) los) = true /\ ok_pairs an (combine (lf_loops f) los) = true /\
  ok_scope an sn f los grammars = true /\ ok_nesting an f bs los grammars = true.
Proof. pose proof SUP as H. unfold lsupported, supported_with in H. rewrite !andb_true_iff in H. tauto. Qed.

Lemma su_nd : NoDup (map b_name bs).
Proof. rewrite (gr_names _ _ _ GR). apply nodupb_ok. apply sup_all. Qed.
Lemma su_types : ok_types an f = true. Proof. apply sup_all. Qed.
Lemma su_disj : forallb (fun x => negb (dmem (a_ptr an) x)) (dkeys (a_prim an)) = true.
Proof. pose proof su_types as H. unfold ok_types in H. rewrite !andb_true_iff in H. tauto. Qed.
Lemma su_edges b : In b bs -> ok_edges an uninterp sn bs los b = true.
Proof. destruct sup_all as (_ & _ & _ & _ & H & _). rewrite forallb_forall in H. auto. Qed.
Lemma su_avail b n : In b bs -> In n (avail an (b_name b)) -> junk an n = false.
Proof.
  intros IN IN'. destruct sup_all as (_ & _ & _ & H & _). rewrite forallb_forall in H. specialize (H b IN). unfold ok_avail in H.
  rewrite forallb_forall in H. specialize (H n IN'). now apply negb_true_iff in H.
Qed.
Lemma su_bare b : In b bs -> ok_bare an f bs los (nonempty pre) b = true.
Proof. destruct sup_all as (_ & _ & _ & _ & _ & H & _). rewrite forallb_forall in H. auto. Qed.
Lemma su_result b : In b bs -> ok_result an sn bs los b = true.
Proof. destruct sup_all as (_ & _ & _ & _ & _ & _ & H & _). rewrite forallb_forall in H. auto. Qed.
Lemma su_sret o : lf_sret f = Some o -> exists x t, sn = Some x /\ o = var_obj t x /\ reg_ty an (true, x) = Some (TList TInt) /\
  label_ok an (true, x) t = true /\ ~ In (true, x) (arg_regs f) /\ (true, x) <> rv_reg f.
Proof.
  intros E. pose proof su_types as H. unfold ok_types in H. rewrite E in H. rewrite !andb_true_iff in H. destruct H as [_ H].
  unfold sret_name. rewrite E. destruct (var_name o) as [x|] eqn:V; [|discriminate]. rewrite !andb_true_iff, !negb_true_iff in H.
  destruct H as ((((H1 & H2) & H3) & H4) & H5). exists x, (o_ty o). split; auto. split; [|split; [now apply is_ty_eq | split; auto; split]].
  - destruct o as [t e]. cbn in *. unfold var_obj. f_equal. unfold var_name in V. cbn in V. destruct e as [|[] u args]; try discriminate.
    apply ty_eqb_eq in H3. subst u. destruct args as [|[[]|] []]; try discriminate. injection V as ->. reflexivity.
  - rewrite <- nmem_in. congruence.
  - intros Q. apply name_eqb_spec in Q. congruence.
Qed.
Lemma su_sn x : sn = Some x -> exists t, lf_sret f = Some (var_obj t x).
Proof.
  intros E. destruct (lf_sret f) as [o|] eqn:L.
  - destruct (su_sret o L) as (y & t & E' & -> & _). exists t. congruence.
  - unfold sret_name in E. rewrite L in E. discriminate.
Qed.
Lemma su_srt x : sn = Some x -> reg_ty an (true, x) = Some (TList TInt).
Proof. intros E. destruct (su_sn x E) as [t L]. destruct (su_sret _ L) as (y & u & E' & _ & R & _). congruence. Qed.
Lemma su_sn_arg x : sn = Some x -> ~ In (true, x) (arg_regs f) /\ (true, x) <> rv_reg f.
Proof. intros E. destruct (su_sn x E) as [t L]. destruct (su_sret _ L) as (y & u & E' & _ & R & _ & A & B). assert (y = x) by congruence. subst y. auto. Qed.
Lemma su_rv : label_ok an (rv_reg f) (lf_ret f) = true.
Proof. pose proof su_types as H. unfold ok_types in H. rewrite !andb_true_iff in H. tauto. Qed.
Lemma su_rv_arg : ~ In (rv_reg f) (arg_regs f).
Proof. pose proof su_types as H. unfold ok_types in H. rewrite !andb_true_iff, !negb_true_iff in H. rewrite <- nmem_in. destruct H as [[_ H] _]. congruence. Qed.
Lemma su_simple n t : reg_ty an n = Some t -> simple_ty t = true.
Proof.
  pose proof su_types as H. unfold ok_types in H. rewrite !andb_true_iff in H. destruct H as ((((((H & _) & _) & _) & _) & _) & _).
  rewrite forallb_forall in H. intros R. destruct n as [p x]. unfold reg_ty in R. destruct (junk an (p, x)); [discriminate|]. cbn in R.
  apply (H (x, t)). apply in_or_app. destruct p; [right | left]; now apply dget_in.
Qed.

(** the arguments as objects *)
Definition argobj (o : obj) : Prop := exists x t, o = var_obj t x /\ label_ok an (is_pointer_type t, x) t = true.
Definition argobj' (o : obj) : Prop := exists x t, o = var_obj t x /\ reg_ty an (is_pointer_type t, x) = Some t /\ smem x (a_lits an) = false.
Lemma argobj_strict o : argobj' o -> argobj o.
Proof. intros (x & t & -> & R & _). exists x, t. split; auto. now apply label_reg. Qed.
Definition regname (o : obj) : name := (is_pointer_type (o_ty o), match var_name o with Ok x => x | Err _ => EmptyString end).
Lemma su_args : Forall argobj' (lf_args f).
Proof.
  pose proof su_types as H. unfold ok_types in H. rewrite !andb_true_iff in H. destruct H as (((((_ & H) & _) & _) & _) & _).
  rewrite forallb_forall in H. rewrite Forall_forall. intros o IN. specialize (H o IN). destruct (var_name o) as [x|] eqn:V; [|discriminate].
  apply andb_true_iff in H as [H1 H2]. apply andb_true_iff in H1 as [H1 H0]. apply is_ty_eq in H1. apply negb_true_iff in H0. exists x, (o_ty o). split; auto.
  destruct o as [t e]. cbn in *. unfold var_obj. f_equal. unfold var_name in V. cbn in V. destruct e as [|[] u args]; try discriminate.
  apply ty_eqb_eq in H2. subst u. destruct args as [|[[]|] []]; try discriminate. injection V as ->. reflexivity.
Qed.
Lemma arg_regs_in n : In n (arg_regs f) <-> exists o, In o (lf_args f) /\ regname o = n.
Proof.
  assert (A : forall p x, In x (arg_names f p) <-> exists o, In o (lf_args f) /\ regname o = (p, x)).
  { intros p x. unfold arg_names. rewrite in_flat_map. pose proof su_args as SA. rewrite Forall_forall in SA. split.
    - intros (o & IN & H). destruct (SA o IN) as (y & t & -> & R). exists (var_obj t y). split; auto.
      cbn [var_name var_obj o_src mkVar] in H. destruct (Bool.eqb _ p) eqn:E; [|destruct H]. apply eqb_prop in E. destruct H as [<-|[]].
      unfold regname. cbn in *. now rewrite E.
    - intros (o & IN & H). exists o. split; auto. destruct (SA o IN) as (y & t & -> & R). unfold regname in H. cbn in H. injection H as <- <-.
      cbn. rewrite eqb_reflx. now left. }
  unfold arg_regs. rewrite in_app_iff, !in_map_iff. destruct n as [[] y].
  - rewrite <- A. split; [intros [(x & [= <-] & IN)|(x & [=] & IN)]; auto | intros H; left; eauto].
  - rewrite <- A. split; [intros [(x & [=] & IN)|(x & [= <-] & IN)]; auto | intros H; right; eauto].
Qed.
Lemma arg_regs_argn n : In n (arg_regs f) -> In (snd n) argn.
Proof.
  unfold arg_regs, argn. rewrite !in_app_iff, !in_map_iff. intros [(x & <- & IN)|(x & <- & IN)]; auto.
Qed.

Lemma argn_in x : In x argn -> exists p, In (p, x) (arg_regs f).
Proof.
  unfold argn, arg_regs. rewrite in_app_iff. intros [H|H]; [exists true | exists false]; rewrite in_app_iff, !in_map_iff; eauto.
Qed.
Lemma argn_facts x : In x argn -> smem x (a_junk an) = false /\ smem x (a_lits an) = false /\ is_sret sn x = false.
Proof.
  intros IN. destruct (argn_in x IN) as [p P]. pose proof P as P'. apply arg_regs_in in P as (o & INo & E).
  pose proof su_args as SA. rewrite Forall_forall in SA. destruct (SA o INo) as (y & t & -> & R & L). unfold regname in E. cbn in E. injection E as EP ->.
  rewrite EP in R. split; [|split]; auto.
  - destruct p; [exact (reg_junk _ _ _ R)|]. apply not_true_is_false. intros J. apply smem_in in J.
    pose proof su_types as H. unfold ok_types in H. rewrite !andb_true_iff in H. destruct H as ((((_ & H) & _) & _) & _). rewrite forallb_forall in H.
    specialize (H x J). unfold reg_ty in R. cbn in R. unfold dmem in H. rewrite R in H. discriminate.
  - unfold is_sret. destruct sn as [z|] eqn:S; auto. apply String.eqb_neq. intros <-. destruct p; [exact (proj1 (su_sn_arg _ S) P')|].
    eapply (disj_names an su_disj); [exact R | apply su_srt; exact S].
Qed.

(** the loops *)
Definition loop_at (n : nat) (rl : raw_loop) (lo : loop_info) : Prop := nth_error (combine (lf_loops f) los) n = Some (rl, lo).
Lemma loop_at_ex n lo : In (n, lo) (numbered los) -> exists rl, loop_at n rl lo /\ matches rl lo.
Proof.
  rewrite numbered_in. unfold loop_at. clear - ML. revert n. induction ML as [|rl lo' rls los' M F IH]; intros n H; [destruct n; discriminate|].
  destruct n as [|n]; cbn in *; [injection H as <-; eauto | auto].
Qed.
Lemma lo_numbered lo : In lo los -> exists n, In (n, lo) (numbered los).
Proof. intros IN. apply In_nth_error in IN as [n E]. exists n. now apply numbered_in. Qed.
Lemma loop_ok n rl lo : loop_at n rl lo -> ok_loop an sn f bs los (rl, lo) = true.
Proof. intros H. destruct sup_all as (_ & _ & _ & _ & _ & _ & _ & L & _). rewrite forallb_forall in L. apply L. eapply nth_error_In; eauto. Qed.
Lemma loops_pair n m rl lo rl' lo' : loop_at n rl lo -> loop_at m rl' lo' -> n <> m ->
  sepd (rl, lo) (rl', lo') \/ within_loop an (rl', lo') (rl, lo) \/ within_loop an (rl, lo) (rl', lo').
Proof. intros A B N. destruct sup_all as (_ & _ & _ & _ & _ & _ & _ & _ & D & _). exact (ok_pairs_ok _ _ D n m _ _ A B N). Qed.
Lemma headers_differ n m rl lo rl' lo' : loop_at n rl lo -> loop_at m rl' lo' -> n <> m -> rl_header rl <> rl_header rl'.
Proof.
  intros A B N E. destruct (loops_pair _ _ _ _ _ _ A B N) as [[D _]|[[D _]|[D _]]]; cbn [fst] in D.
  - apply (D (rl_header rl)); [|rewrite E]; now left.
  - apply D. rewrite E. now left.
  - apply D. rewrite <- E. now left.
Qed.
Lemma header_unique n m lo lo' : In (n, lo) (numbered los) -> In (m, lo') (numbered los) -> lo_header lo = lo_header lo' -> n = m /\ lo = lo'.
Proof.
  intros A B E. destruct (Nat.eq_dec n m) as [->|N]; [split; auto; apply numbered_in in A, B; congruence|].
  destruct (loop_at_ex _ _ A) as (rl & LA & [MA _]). destruct (loop_at_ex _ _ B) as (rl' & LB & [MB _]).
  exfalso. apply (headers_differ _ _ _ _ _ _ LA LB N). congruence.
Qed.
Lemma header_loops_one b : header_loops los b = [] \/ exists q, header_loops los b = [q] /\ In q (numbered los) /\ lo_header (snd q) = b.
Proof.
  destruct (header_loops los b) as [|q l] eqn:E; auto. right. exists q.
  assert (HQ : forall p, In p (q :: l) -> In p (numbered los) /\ lo_header (snd p) = b).
  { intros p IN. rewrite <- E in IN. apply filter_In in IN as [IN EQ]. apply String.eqb_eq in EQ. auto. }
  destruct (HQ q (or_introl eq_refl)) as [Q1 Q2]. split; auto. destruct l as [|q' l]; auto. exfalso.
  destruct (HQ q' (or_intror (or_introl eq_refl))) as [Q3 Q4]. destruct q as [n lo], q' as [m lo']. cbn [snd] in *.
  destruct (header_unique _ _ _ _ Q1 Q3) as [-> ->]; [congruence|].
  assert (ND : NoDup (header_loops los b)).
  { apply NoDup_filter. unfold numbered. clear. assert (H : forall k, NoDup (combine (seq k (length los)) los)).
    { induction los as [|l los' IH]; intros k; cbn; constructor; auto. intros IN. apply in_combine_l in IN. apply in_seq in IN. lia. }
    apply H. }
  rewrite E in ND. inversion ND as [|? ? NI _]; subst. apply NI. now left.
Qed.
Lemma not_header b : is_header los b = false <-> header_loops los b = [].
Proof.
  unfold is_header. split; intros H.
  - destruct (header_loops_one b) as [|(q & E & Q1 & Q2)]; auto. exfalso.
    assert (existsb (fun lo => (b =? lo_header lo)%string) los = true); [|congruence]. apply existsb_exists. exists (snd q).
    split; [destruct q; apply numbered_in in Q1; eapply nth_error_In; eauto | rewrite Q2; apply String.eqb_refl].
  - apply not_true_is_false. intros E. apply existsb_exists in E as (lo & IN & EQ). destruct (lo_numbered _ IN) as [n Q].
    assert (IN' : In (n, lo) (header_loops los b)) by (apply filter_In; auto). rewrite H in IN'. destruct IN'.
Qed.

Lemma loop_parts n rl lo : loop_at n rl lo ->
  (forall b, In b (loop_blocks rl) -> b = rl_header rl \/ exists bl, find_block bs b = Some bl /\ incl (b_preds bl) (loop_blocks rl) /\ b_preds bl <> []) /\
  (forall x, In x (lo_havocs lo) -> ~ In x argn /\ x <> rvn /\ dmem (a_ptr an) x = true /\ smem x (a_junk an) = false /\ smem x (a_lits an) = false) /\
  (forall b bl m, In b (loop_blocks rl) -> find_block bs b = Some bl -> In m (defs (b_instrs bl)) ->
     (fst m = true /\ In (snd m) (lo_havocs lo)) \/
     (~ In m (arg_regs f) /\ m <> rv_reg f /\ (forall x, sn = Some x -> m <> (true, x)) /\ (forall lo', In lo' los -> fst m = true -> ~ In (snd m) (lo_havocs lo')) /\
      forall b', In b' bs -> In m (defs (b_instrs b')) -> In (b_name b') (loop_blocks rl))).
Proof.
  intros LA. pose proof (loop_ok _ _ _ LA) as H. unfold ok_loop in H. cbn [fst snd] in H. rewrite !andb_true_iff, !forallb_forall in H.
  destruct H as [[H1 H2] H3]. split; [|split].
  - intros b IN. specialize (H1 b IN). apply orb_true_iff in H1 as [E|E]; [left; now apply String.eqb_eq|]. right.
    destruct (find_block bs b) as [bl|] eqn:FB; [|discriminate]. exists bl. split; auto. apply andb_true_iff in E as [E1 E2]. rewrite forallb_forall in E1.
    split; [intros p P; apply smem_in; auto | destruct (b_preds bl); congruence].
  - intros x IN. specialize (H2 x IN). rewrite !andb_true_iff, !negb_true_iff in H2. destruct H2 as [[[[[A B] C] D] D1] D2].
    apply smem_not_in in A, B. apply String.eqb_neq in C. split; auto. unfold argn. rewrite in_app_iff. tauto.
  - intros b bl m IN FB D. specialize (H3 b IN). unfold block_defs in H3. rewrite FB in H3. rewrite forallb_forall in H3. specialize (H3 m D).
    apply orb_true_iff in H3 as [E|E]; [left; apply andb_true_iff in E as [E1 E2]; split; auto; now apply smem_in|]. right.
    rewrite !andb_true_iff, forallb_forall, !negb_true_iff in E. destruct E as [[[[E1 E2] E5] E4] E3]. split; [|split; [|split; [|split]]].
    + intros IN'. apply nmem_in in IN'. congruence.
    + intros E'. apply name_eqb_spec in E'. congruence.
    + intros x ES ->. cbn in E5. unfold is_sret in E5. rewrite ES, String.eqb_refl in E5. discriminate.
    + intros lo' INl F IN'. rewrite F in E4. cbn [andb] in E4. assert (existsb (fun lo => smem (snd m) (lo_havocs lo)) los = true); [|congruence].
      apply existsb_exists. exists lo'. split; auto. now apply smem_true.
    + intros b' IN' D'. specialize (E3 b' IN'). apply orb_true_iff in E3 as [E3|E3]; [now apply smem_in|].
      apply nmem_in in D'. rewrite D' in E3. discriminate.
Qed.

(** ** What is known about the states *)

(** the variables that can occur in a state when the blocks in [d] have been visited *)
Definition Sd (d : list string) : list string :=
  argn ++ rvn :: flat_map (fun lo => if smem (lo_header lo) d then lo_havocs lo else []) los.
(** the registers that can have a value *)
Definition known (d : list string) (n : name) : Prop :=
  In n (arg_regs f) \/ n = rv_reg f \/ (exists b, In b bs /\ In (b_name b) d /\ In n (defs (b_instrs b))) \/
  (exists lo, In lo los /\ In (lo_header lo) d /\ fst n = true /\ In (snd n) (lo_havocs lo)) \/
  (exists x, sn = Some x /\ n = (true, x)).
Definition dom_known (d : list string) (s : lstate) : Prop := forall n o, sget s n = Some o -> known d n.

Lemma Sd_weaken d d' : incl d d' -> incl (Sd d) (Sd d').
Proof.
  intros H x. unfold Sd. rewrite !in_app_iff. cbn [In]. rewrite !in_flat_map. intros [|[|(lo & IN & X)]]; auto.
  right. right. exists lo. split; auto. destruct (smem (lo_header lo) d) eqn:E; [|destruct X].
  apply smem_in in E. apply H in E. apply smem_true in E. now rewrite E.
Qed.
Lemma known_weaken d d' n : incl d d' -> known d n -> known d' n.
Proof.
  intros H [|[|[(b & A & B & C)|[(lo & A & B & C)|]]]]; unfold known; auto.
  - right. right. left. exists b. auto.
  - right. right. right. left. exists lo. auto.
Qed.
Lemma arg_Sd d x : In x argn -> In x (Sd d).
Proof. intros H. unfold Sd. apply in_or_app. auto. Qed.
Lemma rv_Sd d : In rvn (Sd d).
Proof. unfold Sd. apply in_or_app. cbn. auto. Qed.

(** the condition under which control goes from [p] to [b] *)
Definition edge_of (v : visitor) (b p : string) (pc : list expr) : Prop :=
  exists pb, find_block bs p = Some pb /\
  match last_instr (b_instrs pb) with
  | Some (ICondBr (OName c false) t e) =>
      exists o, dget (prims (st v p)) c = Some o /\
        ((b = t /\ pc = [o_src o]) \/ (b = e /\ pc = [Node KNot TBool [o_src o]]))
  | Some (IBr t) => b = t /\ pc = []
  | _ => False
  end.
Definition merge_of (v : visitor) (b : block) (s1 : lstate) : Prop :=
  match b_preds b with
  | [] => l_precond s1 = pre /\ forall o, In o (lf_args f) -> sget s1 (regname o) = Some o
  | [p] => exists pc, edge_of v (b_name b) p pc /\ l_precond s1 = pc ++ l_precond (st v p) /\ forall n, sget s1 n = sget (st v p) n
  | ps => l_asserts s1 = [] /\ exists pc0, merged (map (st v) ps) pc0 s1
  end.

Record phase1 (v : visitor) (b : block) (v1 : visitor) : Prop := {
  p1_same : same_but (b_name b) v v1;
  p1_ty : typesok v1;
  p1_ok : okst (Sd (v_done v)) (st v1 (b_name b));
  p1_known : dom_known (v_done v) (st v1 (b_name b));
  p1_ass : l_asserts (st v1 (b_name b)) = [];
  p1_merge : merge_of v b (st v1 (b_name b));
  p1_bare : l_precond (st v1 (b_name b)) = [] -> header_loops los (b_name b) = [] -> In (b_name b) (a_bare an) }.

(** *** the entry *)

Definition put_args (b : string) : list obj -> visitor -> res visitor :=
  fix go (os : list obj) (v : visitor) : res visitor :=
          match os with [] => Ok v | o :: r => v' <- (x <- var_name o ;;
               Ok (if is_pointer_type (o_ty o) then set_ptr v b x o else set_prim v b x o)) ;; go r v' end.

Lemma put_args_ok b os : (forall o o', In o os -> In o' os -> regname o = regname o' -> o = o') -> forall v v', put_args b os v = Ok v' -> Forall argobj os -> typesok v ->
  same_but b v v' /\ typesok v' /\
  (forall m o, sget (st v' b) m = Some o -> sget (st v b) m = Some o \/ (In o os /\ m = regname o)) /\
  (forall o, In o os -> sget (st v' b) (regname o) = Some o) /\
  (forall m, ~ In m (map regname os) -> sget (st v' b) m = sget (st v b) m) /\
  l_precond (st v' b) = l_precond (st v b) /\ l_asserts (st v' b) = l_asserts (st v b) /\
  (NoDup (dkeys (prims (st v b))) -> NoDup (dkeys (prims (st v' b)))) /\
  (NoDup (dkeys (ptrs (st v b))) -> NoDup (dkeys (ptrs (st v' b)))).
Proof.
  induction os as [|o os IH]; intros UQ v v' P F T; cbn [put_args] in P.
  - injection P as <-. split; [apply same_refl|]. repeat split; auto; try apply T. intros o [].
  - inversion F as [|? ? (x & t & -> & R) F']; subst. cbn [var_name var_obj o_src mkVar bindR o_ty] in P.
    set (v1 := if is_pointer_type t then _ else _) in P.
    assert (V1 : same_but b v v1 /\ typesok v1 /\ st v1 b = sset (st v b) (is_pointer_type t, x) (var_obj t x)).
    { unfold v1. destruct (is_pointer_type t); [destruct (set_ptr_facts v b x (var_obj t x)) | destruct (set_prim_facts v b x (var_obj t x))];
        (split; [auto|]; split; auto); [apply set_ptr_types; auto; cbn [o_ty var_obj]; rewrite R; apply orb_true_r | apply set_prim_types; auto]. }
    destruct V1 as (SB & T1 & ES). assert (RN : regname (var_obj t x) = (is_pointer_type t, x)) by reflexivity.
    assert (UQ' : forall o o', In o os -> In o' os -> regname o = regname o' -> o = o') by (intros o o' X Y; apply UQ; now right).
    destruct (IH UQ' _ _ P F' T1) as (A1 & A2 & A3 & A4 & A5 & A6 & A7 & A8 & A9). rewrite ES in *.
    pose proof (sets_sset (st v b) (is_pointer_type t, x) (var_obj t x)) as SS.
    split; [eapply same_trans; eauto|]. split; auto. split; [|split; [|split; [|split; [|split; [|split]]]]].
    + intros m o E. destruct (A3 m o E) as [E1|[IN EM]]; [|right; split; auto; now right].
      destruct (name_dec m (is_pointer_type t, x)) as [->|N].
      * rewrite sget_same in E1. injection E1 as <-. right. split; [now left | auto].
      * rewrite sget_other in E1 by auto. auto.
    + intros o [<-|IN]; [|auto]. rewrite RN. destruct (in_dec name_dec (is_pointer_type t, x) (map regname os)) as [IN|NI].
      * apply in_map_iff in IN as (o & E & IN). rewrite (UQ (var_obj t x) o); [|now left | now right | congruence]. rewrite <- E. apply (A4 _ IN).
      * rewrite A5 by auto. apply sget_same.
    + intros m N. cbn [map] in N. rewrite RN in N. rewrite A5 by (intros IN; apply N; now right). apply sget_other. intros ->. apply N. now left.
    + rewrite A6. apply (se_pre _ _ _ _ SS).
    + rewrite A7. apply (se_ass _ _ _ _ SS).
    + intros N. apply A8, (se_nd1 _ _ _ _ SS N).
    + intros N. apply A9, (se_nd2 _ _ _ _ SS N).
Qed.

Lemma var_okobj S p t x : label_ok an (p, x) t = true -> In x (ns an sn S (p, x)) -> okobj S (p, x) (var_obj t x).
Proof.
  intros L IN. destruct (label_exact _ _ _ L) as (u & R & _). constructor.
  - split; [intros y [<-|[]]; exact IN | split; intros _; reflexivity].
  - reflexivity.
  - cbn [o_ty var_obj]. rewrite L. apply orb_true_r.
  - intros r F. destruct (F x u (reg_G an su_disj _ _ R)) as (w & W1 & W2). exists w. split; auto. unfold Pn. now rewrite R.
Qed.
Lemma sn_ns S x : sn = Some x -> In x (ns an sn S (true, x)).
Proof.
  intros E. unfold ns, xs, is_sret. cbn [fst snd]. rewrite E, String.eqb_refl. cbn. rewrite orb_true_r. now left.
Qed.

Lemma rv_argobj : argobj (var_obj (lf_ret f) rvn).
Proof. exists rvn, (lf_ret f). split; auto. apply su_rv. Qed.
Lemma fargs_in o : In o fargs <-> In o (lf_args f).
Proof. exact (sort_objs_in _ _ SORT o). Qed.

(** ** The invariant *)

Definition guarded (s : lstate) (i a : expr) : Prop :=
  (l_precond s = [] /\ a = i) \/ exists c, and_objects (l_precond s) = Ok c /\ a = Node KImplies TBool [c; i].

(** a loop invariant or the postcondition is asserted at the end of [b] *)
Definition asserted (v : visitor) (b : string) (n : nat) : Prop :=
  exists p i a, dget (v_preds v) (inv_name fn n) = Some p /\ lpred_call p (st v b) = Ok i /\
    guarded (st v b) i a /\ In a (l_asserts (st v b)).

(** entering a loop *)
Definition entered (v : visitor) (q : nat * loop_info) (s1 s2 : lstate) : Prop :=
  (forall n, (fst n = true -> ~ In (snd n) (lo_havocs (snd q))) -> sget s2 n = sget s1 n) /\
  (forall x, In x (lo_havocs (snd q)) -> exists t, label_ok an (true, x) t = true /\ sget s2 (true, x) = Some (var_obj t x)) /\
  exists p i, dget (v_preds v) (inv_name fn (fst q)) = Some p /\ lpred_call p s2 = Ok i /\ l_precond s2 = l_precond s1 ++ [i].

Definition jumps (s : lstate) (b : block) (r : env) (t : string) : Prop :=
  match last_instr (b_instrs b) with
  | Some (IBr t') => t = t'
  | Some (ICondBr (OName c false) t' e') =>
      exists o bv, dget (prims s) c = Some o /\ eval I r (o_src o) = Some (VBool bv) /\ t = if bv : bool then t' else e'
  | _ => False
  end.

(** running [b], from the state [s2] to [s] *)
Definition run_ok (b : block) (s2 s : lstate) : Prop :=
  forall r c out, Lk (avail an (b_name b)) s2 r c -> lsteps U c (b_instrs b) = Some out ->
    match out with
    | Next _ => False
    | Jump t c' => exists X, ok_instrs an uninterp sn (avail an (b_name b)) (b_instrs b) = Some X /\ Lk X s r c' /\ jumps s b r t
    | Done c' => exists X x t a, ok_instrs an uninterp sn (avail an (b_name b)) (b_instrs b) = Some X /\ Lk X s r c' /\ sn = Some x /\
        guarded s (Node KCall TBool (Atom (PStr (fn ++ "_ps")%string) :: map o_src fargs ++ [mkVar x t])) a /\ In a (l_asserts s)
    | Return w => exists e a, guarded s (Node KCall TBool (Atom (PStr (fn ++ "_ps")%string) :: map o_src fargs ++ [e])) a /\
        In a (l_asserts s) /\ eval I r e = Some w
    end.

Record visited (v : visitor) (b : block) (s1 s2 : lstate) : Prop := {
  vi_d1 : exists d1 d2, v_done v = d1 ++ b_name b :: d2 /\ okst (Sd d1) s1 /\ dom_known d1 s1 /\
    okst (Sd (d1 ++ [b_name b])) s2 /\ okst (Sd (d1 ++ [b_name b])) (st v (b_name b)) /\ dom_known (d1 ++ [b_name b]) (st v (b_name b));
  vi_merge : merge_of v b s1;
  vi_enter : match header_loops los (b_name b) with [] => s2 = s1 | q :: _ => entered v q s1 s2 end;
  vi_pre : l_precond (st v (b_name b)) = l_precond s2;
  vi_keep : forall n, ~ In n (defs (b_instrs b)) -> sget (st v (b_name b)) n = sget s2 n;
  vi_cl : forall hv Y, Cl hv s2 Y -> Cl hv (st v (b_name b)) (fold_left clean1 (b_instrs b) Y);
  vi_run : run_ok b s2 (st v (b_name b));
  vi_asserts : forall q, In q (header_pred_loops los bs (b_name b) ++ latch_loops los (b_name b)) -> asserted v (b_name b) (fst q) }.

Definition pre_un (v : visitor) (b : block) : Prop :=
  match b_preds b with
  | [p] => (In p (v_done v) -> edge_of v (b_name b) p (l_precond (st v (b_name b)))) /\
           (~ In p (v_done v) -> l_precond (st v (b_name b)) = [])
  | [] => l_precond (st v (b_name b)) = []
  | _ => True
  end.

(** the arguments of the invariant of loop [n] *)
Definition pargs (n : nat) (p : predicate) : Prop := forall v x, In v (p_args p) -> var_name v = Ok x ->
  smem x (a_junk an) = false /\ smem x (a_lits an) = false /\
  (is_sret sn x = true -> forall lo, In (n, lo) (numbered los) -> In x (lo_havocs lo)) /\
  (forall lo l, In (n, lo) (numbered los) -> scope_names f grammars n lo = Some l -> In x l).
Definition named (v : visitor) : Prop :=
  (forall n p, dget (v_preds v) (inv_name fn n) = Some p -> p_name p = inv_name fn n /\ pargs n p) /\
  (forall p, dget (v_preds v) fn = Some p -> p_name p = (fn ++ "_ps")%string).

Record INV (v : visitor) : Prop := {
  iv_ty : typesok v;
  iv_un : forall b, In b bs -> ~ In (b_name b) (v_done v) ->
    prims (st v (b_name b)) = [] /\ ptrs (st v (b_name b)) = [] /\ l_asserts (st v (b_name b)) = [] /\ pre_un v b;
  iv_dn : forall b, In b bs -> In (b_name b) (v_done v) -> exists s1 s2, visited v b s1 s2;
  iv_post : v_done v = [] -> v_post v = pre;
  iv_bare : forall b, In b (v_done v) -> l_precond (st v b) = [] -> In b (a_bare an);
  iv_named : named v;
  iv_ord : ordered bs (v_done v) }.

Lemma ordered_block d x : ordered bs d -> In x d -> exists b, In b bs /\ b_name b = x.
Proof. intros O IN. apply in_split in IN as (l1 & l2 & ->). destruct (O l1 x l2 eq_refl) as (b & A & B & _). eauto. Qed.

Lemma done_st v b : INV v -> In b (v_done v) -> okst (Sd (v_done v)) (st v b) /\ dom_known (v_done v) (st v b).
Proof.
  intros V IN. destruct (ordered_block _ _ (iv_ord _ V) IN) as (bl & B & <-). destruct (iv_dn _ V bl B IN) as (s1 & s2 & VI).
  destruct (vi_d1 _ _ _ _ VI) as (d1 & d2 & E & _ & _ & _ & A & K).
  assert (INC : incl (d1 ++ [b_name bl]) (v_done v)). { rewrite E. intros x. rewrite !in_app_iff. cbn. tauto. }
  split; [eapply okst_weaken; [|exact A]; now apply Sd_weaken|]. intros n o Q. eapply known_weaken; [exact INC | eapply K; eauto].
Qed.

Lemma phase1_entry v b v1 : INV v -> In b bs -> ready v b = true -> b_preds b = [] ->
  preprocess fn (lf_ret f) fargs (lf_sret f) v (b_name b) = Ok v1 -> phase1 v b v1.
Proof.
  intros V IN RD NP H. apply ready_ok in RD as [ND _]. pose proof (su_bare b IN) as BA. unfold ok_bare in BA. rewrite NP in BA.
  rewrite !andb_true_iff in BA. destruct BA as [[[EN HP] _] _]. apply String.eqb_eq in EN.
  assert (D0 : v_done v = []).
  { destruct (v_done v) as [|x d] eqn:E; auto. exfalso. pose proof (iv_ord _ V) as O. rewrite E in O. destruct (O [] x d eq_refl) as (bx & B1 & B2 & _ & B3).
    pose proof (su_bare bx B1) as BA. unfold ok_bare in BA. destruct (b_preds bx) as [|p ps]; [|destruct (B3 p (or_introl eq_refl))].
    rewrite !andb_true_iff in BA. destruct BA as [[[E' _] _] _]. apply String.eqb_eq in E'. apply ND. left. congruence. }
  destruct (iv_un _ V b IN ND) as (U1 & U2 & U3 & U4). unfold pre_un in U4. rewrite NP in U4.
  unfold preprocess in H. ok H v2 E2.
  set (v0 := set_st v (b_name b) _) in E2. change (put_args (b_name b) (fargs ++ [var_obj (lf_ret f) rvn]) v0 = Ok v2) in E2.
  pose proof su_args as SA. rewrite Forall_forall in SA.
  assert (AO : Forall argobj (fargs ++ [var_obj (lf_ret f) rvn])).
  { apply Forall_app. split; [|constructor; [apply rv_argobj | constructor]]. rewrite Forall_forall. intros o O. apply argobj_strict, SA, fargs_in, O. }
  assert (UQ : forall o o', In o (fargs ++ [var_obj (lf_ret f) rvn]) -> In o' (fargs ++ [var_obj (lf_ret f) rvn]) -> regname o = regname o' -> o = o').
  { assert (NR : forall o, In o fargs -> regname o <> rv_reg f).
    { intros o O E. apply su_rv_arg. rewrite <- E. apply arg_regs_in. exists o. split; auto. now apply fargs_in. }
    intros o o' O O' E. apply in_app_or in O as [O|[<-|[]]]; apply in_app_or in O' as [O'|[<-|[]]]; auto.
    - apply fargs_in in O, O'. destruct (SA o O) as (x & t & -> & R & _), (SA o' O') as (y & u & -> & R' & _).
      unfold regname in E. cbn in E. injection E as E1 ->. rewrite E1 in R. congruence.
    - exfalso. exact (NR o O E).
    - exfalso. exact (NR o' O' (eq_sym E)). }
  assert (T0 : typesok v0) by exact (iv_ty _ V).
  destruct (put_args_ok _ _ UQ _ _ E2 AO T0) as (B1 & B2 & B3 & B4 & _ & B6 & B7 & B8 & B9).
  assert (SR : same_but (b_name b) v0 v1 /\ typesok v1 /\
    (forall m o, sget (st v1 (b_name b)) m = Some o -> sget (st v2 (b_name b)) m = Some o \/
       (exists x t, sn = Some x /\ m = (true, x) /\ o = var_obj t x /\ label_ok an m t = true)) /\
    (forall o, In o (lf_args f) -> sget (st v1 (b_name b)) (regname o) = Some o) /\
    l_precond (st v1 (b_name b)) = l_precond (st v0 (b_name b)) /\ l_asserts (st v1 (b_name b)) = l_asserts (st v0 (b_name b)) /\
    (NoDup (dkeys (prims (st v0 (b_name b)))) -> NoDup (dkeys (prims (st v1 (b_name b))))) /\
    (NoDup (dkeys (ptrs (st v0 (b_name b)))) -> NoDup (dkeys (ptrs (st v1 (b_name b)))))).
  { destruct (lf_sret f) as [so|] eqn:SO.
    - destruct (su_sret _ SO) as (x & t & SN & -> & R & LB & NA & NRV). cbn [var_name var_obj o_src mkVar bindR] in H. injection H as <-.
      destruct (set_ptr_facts v2 (b_name b) x (var_obj t x)) as [SB ES]. pose proof (sets_sset (st v2 (b_name b)) (true, x) (var_obj t x)) as SS.
      rewrite ES. split; [eapply same_trans; eauto|]. split; [apply set_ptr_types; auto; cbn [o_ty var_obj]; rewrite LB; apply orb_true_r|].
      split; [|split; [|split; [|split; [|split]]]].
      + intros m o E. destruct (name_dec m (true, x)) as [->|N].
        * rewrite sget_same in E. injection E as <-. right. exists x, t. auto.
        * rewrite sget_other in E by auto. auto.
      + intros o O. rewrite sget_other; [apply B4, in_or_app; left; now apply fargs_in|]. intros E. apply NA. rewrite <- E. apply arg_regs_in. eauto.
      + rewrite (se_pre _ _ _ _ SS). exact B6.
      + rewrite (se_ass _ _ _ _ SS). exact B7.
      + intros N. apply (se_nd1 _ _ _ _ SS), B8, N.
      + intros N. apply (se_nd2 _ _ _ _ SS), B9, N.
    - injection H as <-. split; auto. split; auto. split; auto. split; auto. intros o O. apply B4, in_or_app. left. now apply fargs_in. }
  clear B1 B2 B6 B7 B8 B9. destruct SR as (A1 & A2 & A3 & A4 & A6 & A7 & A8 & A9).
  assert (S0 : st v0 (b_name b) = with_precond (st v (b_name b)) (l_precond (st v (b_name b)) ++ v_post v)) by (unfold v0; apply st_set_same).
  rewrite S0 in *. cbn [with_precond l_precond l_asserts prims ptrs] in A6, A7, A8, A9. rewrite U1 in A8. rewrite U2 in A9.
  rewrite U4, (iv_post _ V D0) in A6. cbn [app] in A6. 
  assert (GN : forall m, sget (with_precond (st v (b_name b)) (l_precond (st v (b_name b)) ++ v_post v)) m = None).
  { intros m. now apply sget_none_state. }
  assert (OBJ : forall m o, sget (st v1 (b_name b)) m = Some o -> okobj (Sd (v_done v)) m o /\ known (v_done v) m).
  { intros m o E. destruct (A3 m o E) as [E'|(x & t & SN & -> & -> & LB)].
    - destruct (B3 m o E') as [E0|[O ->]]; [rewrite GN in E0; discriminate|]. rewrite Forall_forall in AO. pose proof (AO o O) as AOo.
      assert (IK : In (snd (regname o)) (Sd (v_done v)) /\ known (v_done v) (regname o)).
      { apply in_app_or in O as [O|[<-|[]]].
        - apply fargs_in in O. assert (AR : In (regname o) (arg_regs f)) by (apply arg_regs_in; eauto). split; [apply arg_Sd, arg_regs_argn, AR | left; exact AR].
        - split; [apply rv_Sd | right; left; reflexivity]. }
      destruct IK as [IS K]. split; auto. destruct AOo as (x & t & -> & LB). apply var_okobj; auto. apply ns_incl. exact IS.
    - split; [|right; right; right; right; eauto]. apply var_okobj; auto. now apply sn_ns. }
  constructor; auto.
  - eapply same_trans; [apply same_set_st | exact A1].
  - constructor.
    + apply A8. constructor.
    + apply A9. constructor.
    + intros m o E. apply (OBJ m o E).
    + rewrite A6. eapply Forall_impl; [|exact PRE]. intros e [X Y]. constructor; auto. eapply goodb_weaken; [|exact X]. intros y. apply arg_Sd.
    + rewrite A7, U3. constructor.
  - intros m o E. apply (OBJ m o E).
  - congruence.
  - unfold merge_of. rewrite NP. split; auto.
  - intros E _. rewrite A6 in E. rewrite E in HP. cbn in HP. now apply smem_in.
Qed.

(** the two ways a block with predecessors can be reached *)
Lemma edge_term v b p pc : INV v -> In p (v_done v) -> edge_of v b p pc -> Forall (okcond I an (Sd (v_done v))) pc.
Proof.
  intros V IN (pb & FB & H). destruct (find_block_in _ _ _ FB) as [INb <-]. pose proof (su_edges pb INb) as OE. unfold ok_edges in OE.
  destruct (ok_instrs an uninterp sn (avail an (b_name pb)) (b_instrs pb)) as [X|] eqn:OI; [|discriminate].
  assert (TE : forall is X0, ok_instrs an uninterp sn X0 is = Some X -> forall i, last_instr is = Some i -> ok_terminator an X i = true).
  { clear. induction is as [|i is IH]; intros X0 K j L; [discriminate|]. destruct is as [|i2 is].
    - cbn in K. destruct (ok_terminator an X0 i) eqn:T; [|discriminate]. injection K as <-. cbn in L. injection L as <-. exact T.
    - set (rest := i2 :: is) in *. cbn [ok_instrs] in K. unfold rest in K at 1. destruct (ok_instr an uninterp sn X0 i) as [X1|] eqn:O; [|discriminate].
      apply (IH X1 K). unfold rest in *. cbn [last_instr] in L |- *. exact L. }
  specialize (TE _ _ OI). destruct (last_instr (b_instrs pb)) as [[| | | | | | |t|[c []| | |] t e| | ]|] eqn:L; try destruct H; try discriminate.
  - subst pc. constructor.
  - specialize (TE _ eq_refl). cbn [ok_terminator opty] in TE. destruct (nmem (false, c) X); [|discriminate]. apply is_ty_eq in TE.
    destruct H as (E & C). destruct (done_st v _ V IN) as [OS _].
    pose proof (os_obj _ _ _ _ _ OS (false, c) x E) as O.
    assert (GB : goodb (Sd (v_done v)) (o_src x)).
    { destruct (oo_good _ _ _ _ _ _ O) as (G1 & _ & G3). split; [now apply G3|]. exact G1. }
    assert (B : forall r, fits G r -> exists b, eval I r (o_src x) = Some (VBool b)).
    { intros r F. destruct (oo_val _ _ _ _ _ _ O r F) as (w & E1 & E2). unfold Pn in E2. rewrite TE in E2. destruct (of_bool _ E2) as [b0 ->]. eauto. }
    destruct C as [[_ ->]|[_ ->]]; (constructor; [|constructor]); constructor.
    + exact GB.
    + exact B.
    + apply (gv_goodb true), gv_not, GB.
    + intros r F. destruct (B r F) as [b0 E0]. exists (negb b0). cbn [eval mapO]. rewrite E0. reflexivity.
Qed.

Lemma phase1_merge v b v1 : INV v -> In b bs -> ready v b = true -> b_preds b <> [] ->
  merge_states v b = Ok v1 -> phase1 v b v1.
Proof.
  intros V IN RD NP H. apply ready_ok in RD as [ND PD]. pose proof (su_bare b IN) as BA. unfold ok_bare in BA.
  destruct (iv_un _ V b IN ND) as (U1 & U2 & U3 & U4). unfold pre_un in U4.
  unfold merge_states in H. destruct (b_preds b) as [|p [|q ps]] eqn:EP; [congruence| |].
  - (* one predecessor *)
    assert (Pd : In p (v_done v)) by (apply PD; now left). destruct U4 as [U4 _]. specialize (U4 Pd).
    destruct (done_st v p V Pd) as [OS DK]. pose proof (edge_term v _ _ _ V Pd U4) as OC.
    injection H as <-. set (s1 := {| l_precond := _; prims := _; ptrs := _; l_asserts := _ |}).
    assert (GS : forall n, sget s1 n = sget (st v p) n) by (intros [[] x]; reflexivity).
    constructor; rewrite ?st_set_same.
    + apply same_set_st.
    + exact (iv_ty _ V).
    + constructor.
      * apply (os_nd1 _ _ _ _ _ OS).
      * apply (os_nd2 _ _ _ _ _ OS).
      * intros n o E. rewrite GS in E. apply (os_obj _ _ _ _ _ OS _ _ E).
      * cbn. apply Forall_app. split; [exact OC | apply (os_pre _ _ _ _ _ OS)].
      * cbn. rewrite U3. constructor.
    + intros n o E. rewrite GS in E. apply (DK _ _ E).
    + exact U3.
    + unfold merge_of. rewrite EP. exists (l_precond (st v (b_name b))). auto.
    + cbn. intros E NH. apply app_eq_nil in E as [E1 E2]. pose proof (iv_bare _ V p Pd E2) as BP. apply smem_true in BP. rewrite BP in BA.
      apply not_header in NH. rewrite NH in BA. rewrite E1 in U4. destruct U4 as (pb & FB & U4). unfold ends_in_jump in BA. rewrite FB in BA.
      destruct (last_instr (b_instrs pb)) as [[| | | | | | |t|[c []| | |] t e| | ]|]; try destruct U4.
      * cbn in BA. now apply smem_in.
      * destruct H as (_ & [[_ ?]|[_ ?]]); discriminate.
  - (* several *)
    rewrite <- EP in PD. assert (DS : Forall (okst (Sd (v_done v))) (map (st v) (b_preds b)) /\ Forall (fun s => l_precond s <> []) (map (st v) (b_preds b))).
    { rewrite !Forall_map, !Forall_forall. split; intros x X.
      - apply (done_st v x V (PD x X)).
      - intros E. pose proof (iv_bare _ V x (PD x X) E) as B. rewrite forallb_forall in BA. rewrite EP in X. specialize (BA x X).
        apply smem_true in B. rewrite B in BA. discriminate. }
    destruct DS as [D1 D2]. rewrite <- EP in H. ok H cs Ecs. ok H pc Epc. ok H d1 Ed1. ok H d2 Ed2. injection H as <-.
    set (s1 := {| l_precond := pc; prims := d1; ptrs := d2; l_asserts := _ |}).
    assert (MG : merged (map (st v) (b_preds b)) (l_precond (st v (b_name b))) s1).
    { constructor; auto. exists cs. split; auto. destruct cs as [|c cs]; [cbn; congruence|]. ok Epc c0 Ec. injection Epc as <-. exists c0. auto. }
    destruct (merged_ok I an sn (Sd (v_done v)) _ _ _ MG) as (M1 & M2 & M3 & M4 & M5); auto.
    { rewrite EP. discriminate. }
    constructor; rewrite ?st_set_same; auto.
    + apply same_set_st.
    + exact (iv_ty _ V).
    + intros n o E. destruct (M2 n o E) as (s & INs & NN). apply in_map_iff in INs as (x & <- & X).
      destruct (sget (st v x) n) as [o'|] eqn:E'; [|congruence]. destruct (done_st v x V (PD x X)) as [_ DK]. apply (DK _ _ E').
    + unfold merge_of. rewrite EP. split; [exact U3|]. rewrite <- EP. eauto.
    + congruence.
Qed.

(** *** entering loops *)

Record phase2 (v1 : visitor) (b : block) (v2 : visitor) : Prop := {
  p2_frame : frame [b_name b] v1 v2;
  p2_ty : typesok v2;
  p2_ok : okst (Sd (v_done v1 ++ [b_name b])) (st v2 (b_name b));
  p2_known : dom_known (v_done v1 ++ [b_name b]) (st v2 (b_name b));
  p2_ass : l_asserts (st v2 (b_name b)) = [];
  p2_enter : match header_loops los (b_name b) with [] => st v2 (b_name b) = st v1 (b_name b)
             | q :: _ => entered v2 q (st v1 (b_name b)) (st v2 (b_name b)) end;
  p2_named : named v2 }.

Lemma inv_name_not_fn n : inv_name fn n <> fn.
Proof.
  unfold inv_name. intros E. apply (f_equal String.length) in E. revert E. generalize (string_of_nat n). intros s.
  assert (L : forall a b, String.length (a ++ b)%string = String.length a + String.length b) by (induction a; intros; cbn; auto).
  rewrite !L. cbn. lia.
Qed.
Lemma inv_name_inj n m : inv_name fn n = inv_name fn m -> n = m.
Proof.
  unfold inv_name. intros E.
  assert (L : forall a b c : string, (a ++ b)%string = (a ++ c)%string -> b = c) by (induction a; cbn; intros b c H; [auto | injection H as H; auto]).
  rewrite ?append_assoc in E. apply L in E. try apply L in E. now apply string_of_nat_inj.
Qed.
Lemma objs_init_in l : forall s x, In x (objs_init_from s l) -> In x s \/ In x l.
Proof.
  induction l as [|o l IH]; intros s x H; cbn [objs_init_from] in H; auto. apply IH in H as [H|H]; [|right; now right].
  destruct (objs_in o s); auto. apply in_app_or in H as [H|[<-|[]]]; auto. right. now left.
Qed.
Lemma loop_inv_args v s n lo hv p : In (n, lo) (numbered los) -> Forall (havoc_obj an v) hv ->
  (forall x, In x (lo_havocs lo) <-> exists t, In (var_obj t x) hv) ->
  match dget grammars (inv_name fn n) with Some (_, o :: os) => p = o :: os | _ => sort_objs (objs_plus hv fargs) = Ok p end ->
  forall rest, sort_objs (objs_sub (match dget grammars (inv_name fn n) with
      | Some (names, _) => filter (fun o => match var_name o with Ok x => smem x names | Err _ => false end)
          (map (fun p => var_obj (o_ty (snd p)) (fst p)) (prims s ++ ptrs s))
      | None => map (fun p => var_obj (o_ty (snd p)) (fst p)) (prims s ++ ptrs s) end) p) = Ok rest ->
  forall o x, In o (p ++ rest) -> var_name o = Ok x ->
    (smem x (a_junk an) = false /\ smem x (a_lits an) = false /\ (is_sret sn x = true -> In x (lo_havocs lo))) /\
    (forall l, scope_names f grammars n lo = Some l -> In x l).
Proof.
  intros N HO HI Hp rest Hr. destruct sup_all as (_ & _ & _ & _ & _ & _ & _ & _ & _ & SC & _). unfold ok_scope in SC. rewrite forallb_forall in SC.
  specialize (SC _ N). cbn [fst snd] in SC.
  assert (HP0 : sort_objs (objs_plus hv fargs) = Ok p -> forall o x, In o p -> var_name o = Ok x ->
    (smem x (a_junk an) = false /\ smem x (a_lits an) = false /\ (is_sret sn x = true -> In x (lo_havocs lo))) /\
    In x (lo_havocs lo ++ arg_names f true ++ arg_names f false)).
  { intros SO o x IN VN. apply (sort_objs_in _ _ SO) in IN. unfold objs_plus in IN.
    assert (IN' : In o hv \/ In o fargs).
    { apply objs_init_in in IN as [[]|IN]. apply in_app_or in IN as [IN|IN]; apply objs_init_in in IN as [[]|IN]; auto. }
    destruct IN' as [IN'|IN'].
    - rewrite Forall_forall in HO. destruct (HO o IN') as (y & t & -> & _). cbn in VN. injection VN as ->.
      assert (X : In x (lo_havocs lo)) by (apply HI; eauto). destruct (loop_at_ex _ _ N) as (rl & LA & _). destruct (loop_parts _ _ _ LA) as (_ & HV & _).
      destruct (HV x X) as (_ & _ & _ & J & L). split; [auto|]. apply in_or_app. auto.
    - apply fargs_in in IN'. pose proof su_args as SA. rewrite Forall_forall in SA. destruct (SA o IN') as (y & t & -> & R & _).
      cbn in VN. injection VN as ->.
      assert (INX : In x argn) by (apply (arg_regs_argn (regname (var_obj t x))), arg_regs_in; eauto).
      destruct (argn_facts x INX) as (J & L & S'). split; [split; auto; split; auto; congruence|]. apply in_or_app. right. exact INX. }
  assert (HR : forall sc, sort_objs (objs_sub sc p) = Ok rest -> forall o, In o rest -> In o sc).
  { intros sc SO o IN. apply (sort_objs_in _ _ SO) in IN. unfold objs_sub in IN. apply objs_init_in in IN as [[]|IN].
    apply filter_In in IN as [IN _]. apply objs_init_in in IN as [[]|IN]. exact IN. }
  assert (FI : forall x, negb (smem x (a_junk an)) && negb (smem x (a_lits an)) && (negb (is_sret sn x) || smem x (lo_havocs lo)) = true ->
    smem x (a_junk an) = false /\ smem x (a_lits an) = false /\ (is_sret sn x = true -> In x (lo_havocs lo))).
  { intros x H. rewrite !andb_true_iff, !negb_true_iff in H. destruct H as [[A B] C]. split; auto. split; auto. intros S'. rewrite S' in C. now apply smem_in. }
  specialize (HR _ Hr). destruct (dget grammars (inv_name fn n)) as [[names os]|] eqn:GE.
  - apply andb_true_iff in SC as [S1 S2]. rewrite forallb_forall in S1, S2. intros o x IN VN. apply in_app_or in IN as [IN|IN].
    + unfold scope_names. rewrite GE. destruct os as [|o0 os].
      * destruct (HP0 Hp o x IN VN) as [Q1 Q2]. split; auto. intros l [= <-]. apply in_or_app. auto.
      * subst p. specialize (S2 o IN). rewrite VN in S2. split; [apply FI, S2|]. intros l [= <-]. apply in_or_app. right.
        apply (proj2 (in_flat_map (fun o : obj => match var_name o with Ok x => [x] | Err _ => [] end) (o0 :: os) x)). exists o. split; auto. rewrite VN. now left.
    + apply HR in IN. apply filter_In in IN as [_ IN]. rewrite VN in IN. apply smem_in in IN. split; [apply FI, S1, IN|].
      unfold scope_names. rewrite GE. intros l [= <-]. apply in_or_app. auto.
  - intros o x IN VN. split; [|unfold scope_names; rewrite GE; discriminate]. apply in_app_or in IN as [IN|IN]; [eapply HP0; eauto|].
    destruct (a_junk an) as [|]; [|discriminate]. destruct (a_lits an); [|discriminate]. split; auto. split; auto.
    unfold is_sret. destruct sn as [y|]; [|discriminate]. intros E. apply String.eqb_eq in E. subst y. now apply smem_in.
Qed.
Lemma loop_inv_named v s n lo hv v' p : loop_inv fn fargs grammars v s n hv = Ok (v', p) ->
  forall v0, In (n, lo) (numbered los) -> Forall (havoc_obj an v0) hv -> (forall x, In x (lo_havocs lo) <-> exists t, In (var_obj t x) hv) ->
  named v -> named v'.
Proof.
  intros H v0 N HO HI [A B]. unfold loop_inv in H. ok H a0 Ea. destruct (dget (v_preds v) (inv_name fn n)) as [q|] eqn:E.
  - injection H as <- <-. split; auto.
  - ok H rest Er. injection H as <- <-. split; cbn [v_preds set_pred]; intros m.
    + intros p. rewrite dget_dset. destruct (String.eqb_spec (inv_name fn m) (inv_name fn n)) as [E'|]; [|apply A]. intros [= <-].
      apply inv_name_inj in E'. subst m. split; [reflexivity|]. intros o x IN VN. cbn [p_args] in IN.
      assert (X : (smem x (a_junk an) = false /\ smem x (a_lits an) = false /\ (is_sret sn x = true -> In x (lo_havocs lo))) /\
                  (forall l, scope_names f grammars n lo = Some l -> In x l)).
      { eapply (loop_inv_args v0 s n lo hv _ N HO HI); [|exact Er | exact IN | exact VN].
        destruct (dget grammars (inv_name fn n)) as [[names [|o0 os]]|]; auto. }
      destruct X as ((X1 & X2 & X3) & X4). split; auto. split; auto.
      split; [intros S' lo' N' | intros lo' l N']; apply numbered_in in N, N'; rewrite N in N'; injection N' as <-; auto.
    + rewrite dget_dset. destruct (String.eqb_spec fn (inv_name fn n)) as [E'|]; [symmetry in E'; now apply inv_name_not_fn in E' | apply B].
Qed.

Lemma enter_ok v1 b v2 : In b bs -> typesok v1 -> okst (Sd (v_done v1)) (st v1 (b_name b)) -> dom_known (v_done v1) (st v1 (b_name b)) ->
  l_asserts (st v1 (b_name b)) = [] -> named v1 ->
  runS (enter_loop fn fargs grammars (b_name b)) (header_loops los (b_name b)) v1 = Ok v2 -> phase2 v1 b v2.
Proof.
  intros IN T OK DK AS NM R. set (d := v_done v1) in *. set (bn := b_name b) in *.
  assert (INC : incl d (d ++ [bn])) by (intros x X; apply in_or_app; auto).
  destruct (header_loops_one bn) as [E|(q & E & Q1 & Q2)]; rewrite E in R.
  - injection R as <-. constructor; auto using frame_refl.
    + eapply okst_weaken; [apply Sd_weaken, INC | exact OK].
    + intros n o Q. eapply known_weaken; [exact INC | eapply DK; eauto].
    + fold bn. now rewrite E.
  - cbn [runS] in R. ok R v2' Ev. injection R as ->.
    destruct q as [n lo]. cbn [snd] in Q2. destruct (loop_at_ex _ _ Q1) as (rl & LA & MT). destruct (loop_parts _ _ _ LA) as (_ & HV & _).
    pose proof (enter_frame fn fargs grammars [bn] v1 bn (n, lo) v2 (or_introl eq_refl) Ev) as FR.
    unfold enter_loop in Ev. ok Ev hv Ehv. ok Ev v3 E3. ok Ev vi Evi. ok Ev i Ei. injection Ev as Ev. destruct vi as [v4 p]. cbn [fst snd] in *.
    assert (DP : forallb (fun x => dmem (a_ptr an) x && negb (smem x (a_junk an))) (lo_havocs lo) = true).
    { apply forallb_forall. intros x X. destruct (HV x X) as (_ & _ & H1 & H2 & _). now rewrite H1, H2. }
    destruct (get_havocs_ok an su_disj v1 lo hv T DP Ehv) as [HO HI].
    change (put_havocs bn hv v1 = Ok v3) in E3.
    destruct (put_havocs_ok an v1 bn hv v1 v3 E3 HO T) as (A1 & A2 & A3 & A4 & A5 & A6 & A7 & A8).
    destruct (loop_inv_states _ _ _ _ _ _ _ _ _ Evi) as (L1 & L2 & L3). 
    destruct (loop_inv_frame fn fargs grammars [bn] _ _ _ _ _ _ Evi) as (F4 & PI & _).
    assert (S4 : forall c, st v4 c = st v3 c) by (intros c; unfold st; now rewrite L1).
    assert (PR3 : v_preds v3 = v_preds v1) by apply (sb_preds _ _ _ A1).
    assert (NM4 : named v4) by (eapply (loop_inv_named _ _ _ _ _ _ _ Evi v1 Q1 HO HI); unfold named; rewrite PR3; exact NM).
    set (s3 := st v3 bn) in *. rewrite S4 in Ei. fold s3 in Ei. rewrite S4 in Ev. fold s3 in Ev.
    assert (LOI : In lo los) by (apply numbered_in in Q1; eapply nth_error_In; eauto).
    assert (HS : forall x, In x (lo_havocs lo) -> In x (Sd (d ++ [bn]))).
    { intros x X. unfold Sd. apply in_or_app. right. right. apply in_flat_map. exists lo. split; auto. rewrite Q2.
      assert (smem bn (d ++ [bn]) = true) as -> by (apply smem_true, in_or_app; right; now left). exact X. }
    assert (G3 : forall m o, sget s3 m = Some o -> (sget (st v1 bn) m = Some o) \/ exists x t, m = (true, x) /\ o = var_obj t x /\ In x (lo_havocs lo) /\ label_ok an m t = true).
    { intros m o G3. destruct (in_dec string_dec (snd m) (lo_havocs lo)) as [X|X].
      - destruct m as [[] x]; [|left; rewrite <- G3; symmetry; apply A3; intros t F; discriminate].
        cbn [snd] in X. apply HI in X as (t & X). destruct (A4 x t X) as [B1 B2]. right. exists x, t. split; auto. split; [congruence|]. split; auto. apply HI. eauto.
      - left. rewrite <- G3. symmetry. apply A3. intros t F IN'. apply X. apply HI. eauto. }
    assert (OK3 : okst (Sd (d ++ [bn])) s3).
    { pose proof (okst_weaken I an _ _ _ _ (Sd_weaken _ _ INC) OK) as [B1 B2 B3 B4 B5]. constructor.
      - now rewrite A7.
      - auto.
      - intros m o G. destruct (G3 m o G) as [G'|(x & t & -> & -> & X & R)]; [auto|]. apply var_okobj; auto. apply ns_incl. auto.
      - now rewrite A5.
      - now rewrite A6. }
    assert (OI : okcond I an (Sd (d ++ [bn])) i).
    { destruct (proj1 NM4 _ _ PI) as [PN PA]. eapply lpred_ok; [exact OK3 | exact Ei | |intros vs; rewrite PN; apply INVT].
      intros v y q o INv E0 _. destruct (PA v y INv E0) as (J & L & S' & _).
      assert (J' : junk an (q, y) = false) by (unfold junk; cbn; rewrite J; apply andb_false_r). split; auto. split.
      - unfold lit. cbn. rewrite L. destruct (reg_ty an (q, y)) as [[]|]; auto.
      - unfold ns. rewrite J'. cbn [orb fst snd]. destruct (q && is_sret sn y) eqn:QS; [|apply incl_refl]. apply andb_true_iff in QS as [_ QS].
        intros z Z. unfold xs in Z. unfold is_sret in QS, S'. destruct sn as [w|]; [|exact Z]. destruct Z as [<-|Z]; auto.
        apply String.eqb_eq in QS. subst w. apply HS. apply S'; auto. apply String.eqb_refl. }
    assert (S2 : st v2 bn = with_precond s3 (l_precond s3 ++ [i])) by (rewrite <- Ev; apply st_set_same).
    assert (G2 : forall m, sget (st v2 bn) m = sget s3 m) by (intros [[] x]; rewrite S2; reflexivity).
    assert (P2 : v_preds v2 = v_preds v4) by (rewrite <- Ev; reflexivity).
    constructor; auto.
    + rewrite <- Ev. destruct A2 as [X Y]. split; cbn; [rewrite L2 | rewrite L3]; assumption.
    + fold bn d. destruct OK3 as [B1 B2 B3 B4 B5]. rewrite S2. constructor; auto. cbn. apply Forall_app. split; auto.
    + fold bn d. intros m o G. rewrite G2 in G. destruct (G3 m o G) as [G'|(x & t & -> & -> & X & R)].
      * eapply known_weaken; [exact INC | eapply DK; eauto].
      * right. right. right. left. exists lo. split; auto. split; [rewrite Q2; apply in_or_app; right; now left|]. cbn. auto.
    + fold bn. rewrite S2. cbn. now rewrite A6.
    + fold bn. rewrite E. split; [|split].
      * intros m N. rewrite G2. apply A3. cbn [snd] in N. intros t F IN'. apply (N F). apply HI. eauto.
      * cbn [snd]. intros x X. apply HI in X as (t & X). destruct (A4 x t X) as [B1 B2]. exists t. rewrite G2. auto.
      * exists p, i. cbn [fst]. rewrite P2. split; auto. split; [rewrite S2, <- Ei; apply lpred_ext; reflexivity|]. rewrite S2. cbn. now rewrite A5.
    + unfold named. rewrite P2. exact NM4.
Qed.

(** *** the instructions *)

(** what a block does to the conditions of its successors *)
Definition pushed (v2 v3 : visitor) (b : block) : Prop :=
  match last_instr (b_instrs b) with
  | Some (ICondBr (OName c false) t e) =>
      exists o, dget (prims (st v3 (b_name b))) c = Some o /\
        st v3 t = with_precond (st v2 t) (l_precond (st v2 t) ++ [o_src o]) /\
        st v3 e = with_precond (st v2 e) (l_precond (st v2 e) ++ [Node KNot TBool [o_src o]]) /\
        forall x, x <> b_name b -> x <> t -> x <> e -> st v3 x = st v2 x
  | Some (ICondBr _ t e) => False
  | _ => forall x, x <> b_name b -> st v3 x = st v2 x
  end.

Record phase3 (S : list string) (d : list string) (v2 : visitor) (b : block) (v3 : visitor) : Prop := {
  p3_done : v_done v3 = v_done v2;
  p3_preds : forall x p, dget (v_preds v2) x = Some p -> dget (v_preds v3) x = Some p;
  p3_ty : typesok v3;
  p3_ok : okst S (st v3 (b_name b));
  p3_known : dom_known d (st v3 (b_name b));
  p3_pre : l_precond (st v3 (b_name b)) = l_precond (st v2 (b_name b));
  p3_keep : forall n, ~ In n (defs (b_instrs b)) -> sget (st v3 (b_name b)) n = sget (st v2 (b_name b)) n;
  p3_cl : forall hv Y, Cl hv (st v2 (b_name b)) Y -> Cl hv (st v3 (b_name b)) (fold_left clean1 (b_instrs b) Y);
  p3_run : run_ok b (st v2 (b_name b)) (st v3 (b_name b));
  p3_push : pushed v2 v3 b;
  p3_named : named v3 }.

Lemma guard_ok S s i a : okst S s -> goodb (xs sn S) i -> 
  match l_precond s with [] => Ok i | _ => c <- and_objects (l_precond s) ;; i' <- mkImplies [c; i] ;; mkBoolObj i' end = Ok a ->
  guarded s i a /\ goodb (xs sn S) a.
Proof.
  intros OS GI H. destruct (l_precond s) as [|e l] eqn:E.
  - injection H as <-. split; auto. left. auto.
  - rewrite <- E in H. ok H c Ec. ok H i' Ei. apply bool_obj in H. apply implies_ok in Ei. subst i' a.
    destruct (and_okcond I an S _ _ Ec (os_pre _ _ _ _ _ OS)) as [[[GC GC'] _] _]. split; [right; eauto|].
    destruct GI as [GI GI']. split; [cbn; now rewrite GC, GI|]. cbn [fv flat_map]. rewrite app_nil_r. apply incl_app; auto. eapply incl_tran; [exact GC' | apply xs_incl].
Qed.

Lemma argobj_good S o : argobj o -> In (snd (regname o)) S -> good S (o_src o).
Proof. intros (x & t & -> & R) IN. split; [reflexivity|]. intros y. cbn. intros [<-|[]]. exact IN. Qed.

Lemma cond_pred b c t e x : In b bs -> last_instr (b_instrs b) = Some (ICondBr c t e) -> In x [t; e] ->
  forall bl, In bl bs -> b_name bl = x -> In (b_name b) (b_preds bl).
Proof.
  intros IN L X bl INl E. destruct (gr_succs _ _ _ GR b [e; t] x IN) as (tb & T1 & T2 & T3).
  { unfold targets. now rewrite L. } { cbn in X |- *. tauto. }
  assert (tb = bl). { pose proof (find_block_nodup _ _ su_nd INl) as FB. rewrite E, <- T2, (find_block_nodup _ _ su_nd T1) in FB. congruence. }
  subst tb. destruct T3 as [|(lo & LO & EH & _)]; auto. exfalso.
  pose proof (su_edges b IN) as OE. unfold ok_edges in OE. rewrite L in OE.
  destruct (ok_instrs an uninterp sn (avail an (b_name b)) (b_instrs b)); [|discriminate]. apply andb_true_iff in OE as [_ OE].
  rewrite forallb_forall in OE. assert (Y : exists y, In (x, y) [(t, e); (e, t)]) by (destruct X as [<-|[<-|[]]]; [exists e | exists t]; cbn; auto).
  destruct Y as [y Y]. specialize (OE _ Y). cbn beta iota in OE. rewrite !andb_true_iff, negb_true_iff in OE. destruct OE as [[OE _] _].
  assert (is_header los x = true); [|congruence]. unfold is_header. apply existsb_exists. exists lo. split; auto. rewrite EH. apply String.eqb_refl.
Qed.

Lemma body_ok d v2 b v3 : In b bs -> ~ In (b_name b) (b_preds b) -> typesok v2 -> okst (Sd d) (st v2 (b_name b)) -> dom_known d (st v2 (b_name b)) ->
  In (b_name b) d -> named v2 ->
  runS (visit_instr fn fargs (lf_sret f) uninterp (b_name b)) (b_instrs b) v2 = Ok v3 -> phase3 (Sd d) d v2 b v3.
Proof.
  intros IN NS T OS DK Bd NM R. pose proof (su_edges b IN) as OE. unfold ok_edges in OE.
  destruct (ok_instrs an uninterp sn (avail an (b_name b)) (b_instrs b)) as [X|] eqn:OI; [|discriminate].
  destruct (body_char I U an uninterp LIB UNI sn su_srt su_disj fn fargs (lf_sret f) (b_name b) _ _ _ _ _ _ OS T OI R) as (i & vm & RN & VI).
  destruct RN as [A1 A2 A3 A4 A5 A6 A7 A8 A9 A11 A10]. rewrite A1 in OE.
  assert (KN : dom_known d (st vm (b_name b))).
  { intros n o E. destruct (A7 n o E) as [N|DF].
    - destruct (sget (st v2 (b_name b)) n) as [o'|] eqn:E'; [|congruence]. apply (DK _ _ E').
    - right. right. left. exists b. auto. }
  assert (RUN : forall r c out, Lk (avail an (b_name b)) (st v2 (b_name b)) r c -> lsteps U c (b_instrs b) = Some out ->
      exists c', Lk X (st vm (b_name b)) r c' /\ lstep U c' i = Some out) by exact A10.
  destruct i as [| | | | | | |t|cnd t e|op| ]; try discriminate A2.
  - (* br *)
    cbn [visit_instr] in VI. injection VI as <-. constructor; auto.
    + apply (sb_done _ _ _ A3).
    + intros x p. rewrite (sb_preds _ _ _ A3). auto.
    + intros r c out L ST. destruct (RUN r c out L ST) as (c' & L' & ST'). cbn in ST'. injection ST' as <-. exists X. split; auto. split; auto.
      unfold jumps. now rewrite A1.
    + unfold pushed. rewrite A1. apply (sb_st _ _ _ A3).
    + destruct NM as [N1 N2]. split; rewrite (sb_preds _ _ _ A3); auto.
  - (* conditional br *)
    destruct cnd as [c []| | |]; try discriminate A2. cbn [visit_instr read_operand] in VI.
    ok VI o Eo. destruct (negb (ty_eqb (o_ty o) TBool)); [discriminate|]. ok VI n En. apply not_ok in En. injection VI as VI. subst n.
    apply andb_true_iff in OE as [TE OE]. apply negb_true_iff, String.eqb_neq in TE. rewrite forallb_forall in OE.
    assert (NB : forall x, In x [t; e] -> x <> b_name b).
    { intros x INx ->. apply NS. eapply cond_pred; eauto. }
    assert (NBt : t <> b_name b) by (apply NB; cbn; auto). assert (NBe : e <> b_name b) by (apply NB; cbn; auto).
    set (vt := set_st vm t (with_precond (st vm t) (l_precond (st vm t) ++ [o_src o]))) in *.
    assert (SB3 : st v3 (b_name b) = st vm (b_name b)).
    { rewrite <- VI. rewrite st_set_other by auto. unfold vt. now rewrite st_set_other by auto. }
    assert (Eo' : dget (prims (st vm (b_name b))) c = Some o) by (destruct (dget (prims (st vm (b_name b))) c); congruence).
    constructor; rewrite ?SB3; auto.
    + rewrite <- VI. apply (sb_done _ _ _ A3).
    + intros x p. rewrite <- VI. cbn. rewrite (sb_preds _ _ _ A3). auto.
    + rewrite <- VI. exact A4.
    + intros r s out L ST. destruct (RUN r s out L ST) as (c' & L' & ST'). cbn [lstep] in ST'.
      destruct (getv c' (OName c false)) as [[|bv| | |]|] eqn:GV; try discriminate. injection ST' as <-. exists X. split; auto. split; auto.
      unfold jumps. rewrite A1. exists o, bv. split; auto. split; auto.
      cbn [ok_terminator opty] in A2. destruct (nmem (false, c) X) eqn:NMX; [|discriminate]. apply nmem_in in NMX.
      destruct (L' _ NMX) as (o' & w & Q1 & Q2 & Q3). unfold sget in Q1. cbn in Q1. rewrite Eo' in Q1. injection Q1 as <-.
      cbn in GV, Q2. rewrite Q2 in GV. injection GV as ->. exact Q3.
    + unfold pushed. rewrite A1. exists o. rewrite SB3. split; auto. rewrite <- VI. split; [|split].
      * rewrite st_set_other by auto. unfold vt. rewrite st_set_same, (sb_st _ _ _ A3) by auto. reflexivity.
      * rewrite st_set_same. unfold vt. rewrite st_set_other by auto. rewrite (sb_st _ _ _ A3) by auto. reflexivity.
      * intros x N1 N2 N3. rewrite st_set_other by auto. unfold vt. rewrite st_set_other by auto. apply (sb_st _ _ _ A3); auto.
    + destruct NM as [N1 N2]. rewrite <- VI. split; cbn; rewrite (sb_preds _ _ _ A3); auto.
  - (* ret *)
    cbn [visit_instr] in VI. cbn [ok_terminator] in A2. unfold visit_ret in VI. ok VI rv Erv.
    assert (RV : good (xs sn (Sd d)) (o_src rv) /\
      match op with
      | Some op => forall r c w, Lk X (st vm (b_name b)) r c -> getv c op = Some w -> eval I r (o_src rv) = Some w
      | None => exists x t, sn = Some x /\ o_src rv = mkVar x t
      end).
    { destruct op as [op|].
      - destruct (opty an X op) as [t|] eqn:OT; [|discriminate]. apply negb_true_iff in A2. split.
        + destruct (operand_good _ _ _ _ _ _ _ A5 Erv) as (GO & _). split; auto. destruct op as [x p|z| |]; try discriminate A2.
          * cbn [opty] in OT. destruct (nmem (p, x) X); [|discriminate]. pose proof (operand_sget _ _ _ _ Erv) as Q.
            destruct (oo_good _ _ _ _ _ _ (os_obj _ _ _ _ _ A5 _ _ Q)) as (_ & G2 & _). apply G2. rewrite (reg_junk _ _ _ OT). exact A2.
          * cbn in Erv. injection Erv as <-. reflexivity.
        + intros r c w L GV. eapply operand_ev; eauto.
      - destruct (lf_sret f) as [so|] eqn:SO; [|discriminate]. destruct (su_sret _ SO) as (x & t & SN & -> & _).
        cbn [var_name var_obj o_src mkVar bindR] in Erv. destruct (dget (ptrs (st vm (b_name b))) x) as [c|]; [|discriminate]. injection Erv as <-.
        cbn [o_src]. split; [|eauto]. split; [reflexivity|]. intros y [<-|[]]. unfold xs. rewrite SN. now left. }
    destruct RV as [RV1 RV2].
    match type of VI with match dget (v_preds ?w) _ with _ => _ end = _ => set (v4 := w) in *; assert (F1 : frame [b_name b] vm v4) end.
    { unfold v4. destruct (dget (v_preds vm) fn) eqn:E; [apply frame_refl | now apply frame_pred]. }
    assert (S4 : forall x, st v4 x = st vm x) by (intros x; unfold v4; destruct (dget (v_preds vm) fn); reflexivity).
    assert (T4 : typesok v4) by (unfold v4; destruct (dget (v_preds vm) fn); exact A4).
    assert (NM4 : named v4).
    { destruct NM as [N1 N2]. unfold v4. destruct (dget (v_preds vm) fn) eqn:E.
      - split; rewrite (sb_preds _ _ _ A3); auto.
      - split; cbn [v_preds set_pred].
        + intros m p0. rewrite dget_dset. destruct (String.eqb_spec (inv_name fn m) fn) as [E'|]; [now apply inv_name_not_fn in E'|].
          rewrite (sb_preds _ _ _ A3). apply N1.
        + intros p0. rewrite dget_dset, String.eqb_refl. intros [= <-]. reflexivity. }
    destruct (dget (v_preds v4) fn) as [p|] eqn:Ep; [|discriminate]. ok VI ps Eps. ok VI a Ea. injection VI as VI.
    rewrite (proj2 NM4 p Ep) in Eps. apply call_ok in Eps. subst ps. cbn [o_src] in *. rewrite map_app in Ea. cbn [map] in Ea.
    set (psx := Node KCall TBool (Atom (PStr (fn ++ "_ps")%string) :: map o_src fargs ++ [o_src rv])) in *.
    assert (GP : goodb (xs sn (Sd d)) psx).
    { apply (gv_goodb true), gv_call. apply Forall_app. split; [|constructor; [exact RV1 | constructor]]. rewrite Forall_map, Forall_forall.
      intros o O. apply fargs_in in O. pose proof su_args as SA. rewrite Forall_forall in SA. apply argobj_good; auto using argobj_strict.
      apply xs_incl, arg_Sd, arg_regs_argn, arg_regs_in. eauto. }
    destruct (guard_ok (Sd d) (st vm (b_name b)) psx a A5 GP) as [GD GA].
    { destruct (l_precond (st vm (b_name b))); exact Ea. }
    assert (SB3 : st v3 (b_name b) = l_assert (st vm (b_name b)) a).
    { rewrite <- VI. change (st (set_st v4 (b_name b) (l_assert (st vm (b_name b)) a)) (b_name b) = l_assert (st vm (b_name b)) a). apply st_set_same. }
    assert (P3 : v_preds v3 = v_preds v4) by (rewrite <- VI; reflexivity).
    constructor; rewrite ?SB3; auto.
    + rewrite <- VI. cbn. rewrite (fr_done _ _ _ F1). apply (sb_done _ _ _ A3).
    + intros x p0 E. rewrite P3. apply (fr_preds _ _ _ F1). rewrite (sb_preds _ _ _ A3). exact E.
    + rewrite <- VI. exact T4.
    + destruct A5 as [B1 B2 B3 B4 B5]. constructor; auto. cbn. apply Forall_app. split; auto.
    + intros r s out L ST. destruct (RUN r s out L ST) as (c' & L' & ST'). cbn [lstep] in ST'.
      assert (INa : In a (l_asserts (l_assert (st vm (b_name b)) a))) by (cbn; apply in_or_app; right; now left).
      destruct op as [op|].
      * destruct (getv c' op) as [w|] eqn:GV; [|discriminate]. injection ST' as <-. exists (o_src rv), a. split; [exact GD|].
        split; [exact INa|]. apply (RV2 r c' w L' GV).
      * injection ST' as <-. destruct RV2 as (x & t & SN & ER). exists X, x, t, a. split; auto. split; auto. split; auto. rewrite <- ER. split; auto.
    + unfold pushed. rewrite A1. intros x NX. rewrite <- VI. 
      change (st (set_st v4 (b_name b) (l_assert (st vm (b_name b)) a)) x = st v2 x). rewrite st_set_other by auto. rewrite S4. now apply (sb_st _ _ _ A3).
    + unfold named. rewrite P3. exact NM4.
Qed.

(** *** the assertions *)

Definition ext (s s' : lstate) : Prop :=
  prims s' = prims s /\ ptrs s' = ptrs s /\ l_precond s' = l_precond s /\ incl (l_asserts s) (l_asserts s').
Lemma ext_sget s s' n : ext s s' -> sget s' n = sget s n.
Proof. intros (A & B & _). unfold sget. now rewrite A, B. Qed.
Lemma ext_guarded s s' i a : ext s s' -> guarded s i a -> guarded s' i a.
Proof. intros (_ & _ & A & _). unfold guarded. now rewrite A. Qed.
Lemma ext_run b s2 s s' : ext s s' -> run_ok b s2 s -> run_ok b s2 s'.
Proof.
  intros EX H r c out L ST. specialize (H r c out L ST).
  assert (LKE : forall X c', Lk X s r c' -> Lk X s' r c').
  { intros X c' B n IN. destruct (B n IN) as (o & v & E & Q). exists o, v. now rewrite (ext_sget _ _ _ EX). }
  destruct out as [c'|t c'|w|c']; auto.
  - destruct H as (X & A & B & C). exists X. split; auto. split.
    + auto.
    + unfold jumps in *. destruct EX as (E & _). destruct (last_instr (b_instrs b)) as [[| | | | | | | |[x []| | |]| | ]|]; auto. now rewrite E.
  - destruct H as (e & a & A & B & C). exists e, a. split; [eapply ext_guarded; eauto|]. split; auto. now apply EX.
  - destruct H as (X & x & t & a & A & B & C & D & E). exists X, x, t, a. split; auto. split; auto. split; auto. split; [eapply ext_guarded; eauto|]. now apply EX.
Qed.

Record phase4 (S : list string) (v : visitor) (b : string) (qs : list (nat * loop_info)) (v' : visitor) : Prop := {
  p4_frame : frame [b] v v';
  p4_ext : ext (st v b) (st v' b);
  p4_ty : typesok v';
  p4_ok : okst S (st v' b);
  p4_named : named v';
  p4_asserted : forall q, In q qs -> asserted v' b (fst q) }.

Lemma asserts_ok S b qs : incl qs (numbered los) -> forall v v', typesok v -> okst S (st v b) -> named v ->
  runS (assert_inv fn fargs grammars b) qs v = Ok v' -> phase4 S v b qs v'.
Proof.
  induction qs as [|q qs IH]; intros QN v v' T OS NM R; cbn [runS] in R.
  - injection R as <-. constructor; auto using frame_refl. + repeat split; auto. apply incl_refl. + intros q [].
  - ok R v1 E1. pose proof (assert_inv_frame fn fargs grammars [b] v b q v1 (or_introl eq_refl) E1) as FR.
    unfold assert_inv in E1. ok E1 hv Ehv. ok E1 vi Evi. ok E1 i Ei. ok E1 a Ea. injection E1 as E1. destruct vi as [v2 p]. cbn [fst snd] in *.
    destruct (loop_inv_states _ _ _ _ _ _ _ _ _ Evi) as (L1 & L2 & L3).
    destruct (loop_inv_frame fn fargs grammars [b] _ _ _ _ _ _ Evi) as (F4 & PI & _).
    destruct q as [n lo]. cbn [fst snd] in *. assert (Q1 : In (n, lo) (numbered los)) by (apply QN; now left).
    destruct (loop_at_ex _ _ Q1) as (rl & LA & MT). destruct (loop_parts _ _ _ LA) as (_ & HV & _).
    assert (DP : forallb (fun x => dmem (a_ptr an) x && negb (smem x (a_junk an))) (lo_havocs lo) = true).
    { apply forallb_forall. intros x X. destruct (HV x X) as (_ & _ & H1 & H2 & _). now rewrite H1, H2. }
    destruct (get_havocs_ok an su_disj v lo hv T DP Ehv) as [HO HI].
    pose proof (loop_inv_named _ _ _ _ _ _ _ Evi v Q1 HO HI NM) as NM2.
    assert (S2 : st v2 b = st v b) by (unfold st; now rewrite L1). rewrite S2 in *.
    assert (OI : okcond I an (xs sn S) i).
    { destruct (proj1 NM2 _ _ PI) as [PN PA]. apply (lpred_args I an sn S p (st v b) i true); auto; [|intros vs; rewrite PN; apply INVT].
      intros w y INw E0. destruct (PA w y INw E0) as (J & L & _). split; auto. split; auto. discriminate. }
    destruct (guard_ok S (st v b) i a OS (oc_good _ _ _ _ OI)) as [GD GA]. { destruct (l_precond (st v b)); exact Ea. }
    assert (S1 : st v1 b = l_assert (st v b) a) by (rewrite <- E1; apply st_set_same).
    assert (P1 : v_preds v1 = v_preds v2) by (rewrite <- E1; reflexivity).
    assert (EX : ext (st v b) (st v1 b)). { rewrite S1. repeat split; auto. cbn. apply incl_appl, incl_refl. }
    assert (T1 : typesok v1). { rewrite <- E1. destruct T as [X Y]. split; cbn; [rewrite L2 | rewrite L3]; assumption. }
    assert (OS1 : okst S (st v1 b)). { rewrite S1. destruct OS as [B1 B2 B3 B4 B5]. constructor; auto. cbn. apply Forall_app. split; auto. }
    destruct (IH (fun q Q => QN q (or_intror Q)) v1 v' T1 OS1) as [C1 C2 C3 C4 C5 C6]; auto. { unfold named. rewrite P1. exact NM2. }
    constructor; auto.
    + eapply frame_trans; [exact FR | exact C1].
    + destruct EX as (X1 & X2 & X3 & X4), C2 as (Y1 & Y2 & Y3 & Y4). repeat split; try congruence. eapply incl_tran; eauto.
    + intros q' [<-|INq]; [|auto]. exists p, i, a. split; [apply (fr_preds _ _ _ C1); now rewrite P1|].
      destruct EX as (X1 & X2 & X3 & X4), C2 as (Y1 & Y2 & Y3 & Y4).
      split; [rewrite <- Ei; apply lpred_ext; congruence|]. split.
      * unfold guarded in *. rewrite Y3, X3. exact GD.
      * apply Y4. rewrite S1. cbn. apply in_or_app. right. now left.
Qed.

(** ** Every visit preserves the invariant *)

Lemma block_eq b c : In b bs -> In c bs -> b_name b = b_name c -> b = c.
Proof.
  intros A B E. pose proof (find_block_nodup _ _ su_nd A) as F. rewrite E, (find_block_nodup _ _ su_nd B) in F. congruence.
Qed.

Lemma edge_mono v v' b p pc : st v' p = st v p -> edge_of v b p pc -> edge_of v' b p pc.
Proof. intros E (pb & FB & H). exists pb. split; auto. now rewrite E. Qed.
Lemma merge_mono v v' b s1 : (forall p, In p (b_preds b) -> st v' p = st v p) -> merge_of v b s1 -> merge_of v' b s1.
Proof.
  intros E H. unfold merge_of in *. destruct (b_preds b) as [|p [|q ps]] eqn:EP; auto.
  - assert (EE : st v' p = st v p) by (apply E; now left). destruct H as (pc & A & B & C). exists pc. rewrite EE. split; auto. eapply edge_mono; eauto.
  - destruct H as [A (pc0 & B)]. split; auto. exists pc0. replace (map (st v') (p :: q :: ps)) with (map (st v) (p :: q :: ps)); auto.
    apply map_ext_in. intros x X. symmetry. now apply E.
Qed.
Lemma entered_mono v v' q s1 s2 : (forall x p, dget (v_preds v) x = Some p -> dget (v_preds v') x = Some p) -> entered v q s1 s2 -> entered v' q s1 s2.
Proof. intros M (A & B & (p & i & C & D)). split; auto. split; auto. exists p, i. auto. Qed.
Lemma visited_mono v v' c s1 s2 d3 : (forall x, In x (v_done v) -> st v' x = st v x) ->
  (forall x p, dget (v_preds v) x = Some p -> dget (v_preds v') x = Some p) -> v_done v' = v_done v ++ d3 -> ordered bs (v_done v) ->
  In c bs -> In (b_name c) (v_done v) -> visited v c s1 s2 -> visited v' c s1 s2.
Proof.
  intros ES EP ED O IN Dc [A1 A2 A3 A4 A5 A8 A6 A7].
  assert (Ec : st v' (b_name c) = st v (b_name c)) by auto.
  constructor; rewrite ?Ec; auto.
  - destruct A1 as (d1 & d2 & E & Q). exists d1, (d2 ++ d3). split; [rewrite ED, E, <- app_assoc; reflexivity|]. exact Q.
  - eapply merge_mono; [|exact A2]. intros p P. apply ES. apply in_split in Dc as (l1 & l2 & E). destruct (O l1 _ l2 E) as (b & B1 & B2 & _ & B3).
    rewrite <- (block_eq _ _ B1 IN B2) in P. rewrite E. apply in_or_app. left. auto.
  - destruct (header_loops los (b_name c)) as [|q l]; auto. eapply entered_mono; eauto.
  - intros q Q. destruct (A7 q Q) as (p & i & a & B1 & B2). exists p, i, a. rewrite Ec. split; auto.
Qed.

(** blocks that a conditional branch goes to *)
Record tri (b eb t : block) : Prop := {
  tr_in : In eb bs;
  tr_preds : b_preds eb = [b_name b];
  tr_jump : last_instr (b_instrs eb) = Some (IBr (b_name t));
  tr_defs : defs (b_instrs eb) = [];
  tr_pred : In (b_name eb) (b_preds t);
  tr_all : forall q, In q (b_preds t) -> q = b_name b \/ q = b_name eb;
  tr_header : header_loops los (b_name eb) = [] }.
Lemma cond_target b c t e x y : In b bs -> last_instr (b_instrs b) = Some (ICondBr c t e) -> In (x, y) [(t, e); (e, t)] ->
  forall bl, In bl bs -> b_name bl = x -> b_preds bl = [b_name b] \/ ((forall q, b_preds bl <> [q]) /\ exists eb, b_name eb = y /\ tri b eb bl).
Proof.
  intros IN L X bl INl <-. pose proof (su_edges b IN) as OE. unfold ok_edges in OE. rewrite L in OE.
  destruct (ok_instrs an uninterp sn (avail an (b_name b)) (b_instrs b)); [|discriminate]. apply andb_true_iff in OE as [_ OE]. rewrite forallb_forall in OE.
  assert (NH : is_header los y = false).
  { assert (Y : In (y, b_name bl) [(t, e); (e, t)]) by (cbn in X |- *; intuition congruence). specialize (OE _ Y). cbn beta iota in OE.
    rewrite !andb_true_iff, !negb_true_iff in OE. tauto. }
  specialize (OE _ X). cbn beta iota in OE. apply andb_true_iff in OE as [_ OE]. rewrite (find_block_nodup _ _ su_nd INl) in OE.
  assert (TR : triangle bs (b_name b) y bl = true -> exists eb, b_name eb = y /\ tri b eb bl).
  { unfold triangle. destruct (find_block bs y) as [eb|] eqn:FB; [|discriminate]. destruct (find_block_in _ _ _ FB) as [INe EN].
    rewrite !andb_true_iff. intros ((((T1 & T2) & T3) & T4) & T5). exists eb. split; auto. constructor; auto.
    - destruct (b_preds eb) as [|q []]; try discriminate. apply String.eqb_eq in T1. now subst.
    - destruct (last_instr (b_instrs eb)) as [[| | | | | | |t'| | | ]|]; try discriminate. apply String.eqb_eq in T2. now subst.
    - destruct (defs (b_instrs eb)); [auto | discriminate].
    - apply smem_in in T4. now rewrite EN.
    - rewrite forallb_forall in T5. intros q Q. specialize (T5 q Q). apply orb_true_iff in T5 as [T5|T5]; apply String.eqb_eq in T5; subst; auto.
    - apply not_header. now rewrite EN. }
  destruct (b_preds bl) as [|p []] eqn:EP.
  - right. split; [discriminate | auto].
  - left. apply String.eqb_eq in OE. now subst.
  - right. split; [discriminate | auto].
Qed.


Lemma visit_inv b v v' : INV v -> In b bs -> ready v b = true -> ordered bs (v_done v') ->
  visit_block fn (lf_ret f) fargs (lf_sret f) uninterp los grammars bs b v = Ok v' -> INV v'.
Proof.
  intros V IN RD OR VB. pose proof (visit_block_done _ _ _ _ _ _ _ _ _ _ _ VB) as VD.
  destruct (proj1 (ready_ok v b) RD) as [ND PD]. unfold visit_block in VB. ok VB v1 E1. ok VB v2 E2. ok VB v3 E3.
  set (bn := b_name b) in *. set (d := v_done v) in *.
  assert (P1 : phase1 v b v1).
  { destruct (b_preds b) as [|p ps] eqn:EP; [now apply phase1_entry|]. apply phase1_merge; auto. congruence. }
  destruct P1 as [A1 A2 A3 A4 A5 A6 A7]. fold bn in A1, A3, A4, A5, A6, A7. fold d in A3, A4.
  assert (D1 : v_done v1 = d) by apply (sb_done _ _ _ A1).
  assert (Q1 : v_preds v1 = v_preds v) by apply (sb_preds _ _ _ A1).
  rewrite <- D1 in A3, A4.
  assert (P2 : phase2 v1 b v2).
  { apply enter_ok; auto. unfold named. rewrite Q1. apply (iv_named _ V). }
  destruct P2 as [B1 B2 B3 B4 B5 B6 B7]. fold bn in B1, B3, B4, B5, B6. rewrite D1 in A3, A4, B3, B4.
  assert (NS : ~ In bn (b_preds b)) by (intros X; apply ND, PD, X).
  assert (P3 : phase3 (Sd (d ++ [bn])) (d ++ [bn]) v2 b v3).
  { apply body_ok; auto. apply in_or_app; right; now left. }
  destruct P3 as [C1 C2 C3 C4 C5 C6 C7 C11 C8 C9 C10]. fold bn in C4, C5, C6, C7, C8.
  assert (P4 : phase4 (Sd (d ++ [bn])) (set_done v3 bn) bn (header_pred_loops los bs bn ++ latch_loops los bn) v').
  { apply asserts_ok; auto. intros q Q. apply in_app_or in Q as [Q|Q]; unfold header_pred_loops, latch_loops in Q; apply filter_In in Q; apply Q. }
  destruct P4 as [F1 F2 F3 F4 F5 F6]. change (st (set_done v3 bn) bn) with (st v3 bn) in F2.
  assert (S4 : forall x, x <> bn -> st v' x = st v3 x).
  { intros x N. rewrite (fr_st _ _ _ F1 x); [reflexivity|]. cbn. intuition. }
  assert (S2 : forall x, x <> bn -> st v2 x = st v x).
  { intros x N. rewrite (fr_st _ _ _ B1 x) by (cbn; intuition). now apply (sb_st _ _ _ A1). }
  assert (PM : forall x p, dget (v_preds v2) x = Some p -> dget (v_preds v') x = Some p).
  { intros x p E. apply (fr_preds _ _ _ F1). cbn. now apply C2. }
  assert (PM0 : forall x p, dget (v_preds v) x = Some p -> dget (v_preds v') x = Some p).
  { intros x p E. apply PM, (fr_preds _ _ _ B1). now rewrite Q1. }
  (* which states change *)
  assert (CT : forall x, In x bs -> b_name x <> bn -> ~ In bn (b_preds x) -> st v' (b_name x) = st v (b_name x)).
  { intros x INx NX NP. rewrite S4 by auto. rewrite <- S2 by auto. unfold pushed in C9.
    destruct (last_instr (b_instrs b)) as [[| | | | | | | |[c []| | |] t e| | ]|] eqn:L; auto; try destruct C9.
    destruct H as (_ & _ & C9). apply C9; auto; intros E; apply NP; eapply (cond_pred b _ t e (b_name x) IN L); eauto; cbn; auto. }
  assert (CP : forall x, In x bs -> b_name x <> bn -> prims (st v' (b_name x)) = prims (st v (b_name x)) /\
    ptrs (st v' (b_name x)) = ptrs (st v (b_name x)) /\ l_asserts (st v' (b_name x)) = l_asserts (st v (b_name x))).
  { intros x INx NX. rewrite S4 by auto. rewrite <- S2 by auto. unfold pushed in C9.
    destruct (last_instr (b_instrs b)) as [[| | | | | | | |[c []| | |] t e| | ]|] eqn:L; try destruct C9; try (rewrite C9 by auto; auto; fail).
    destruct H as (_ & H1 & H2 & C9). destruct (string_dec (b_name x) t) as [->|N1]; [rewrite H1; auto|].
    destruct (string_dec (b_name x) e) as [->|N2]; [rewrite H2; auto|]. rewrite C9 by auto. auto. }
  assert (SD : forall x, In x d -> st v' x = st v x).
  { intros x X. destruct (ordered_block _ _ (iv_ord _ V) X) as (bx & I1 & <-). apply CT; auto; [congruence|]. intros PX.
    apply in_split in X as (l1 & l2 & E). destruct (iv_ord _ V l1 _ l2 E) as (b' & G1 & G2 & _ & G3).
    rewrite (block_eq _ _ G1 I1 G2) in G3. apply ND. fold d in E. rewrite E. apply in_or_app. left. now apply G3. }
  constructor; auto; try apply F5; try apply F3.
  - (* not visited yet *)
    rewrite VD. intros x INx NX. assert (NB : b_name x <> bn) by (intros E; apply NX, in_or_app; right; left; auto).
    assert (NDx : ~ In (b_name x) d) by (intros E; apply NX, in_or_app; auto).
    destruct (iv_un _ V x INx NDx) as (U1 & U2 & U3 & U4). destruct (list_eq_dec string_dec (b_preds x) [bn]) as [EP|NEP].
    + unfold pre_un in U4 |- *. rewrite EP in U4 |- *. destruct U4 as [_ U4]. specialize (U4 ND).
      assert (FBb : find_block bs bn = Some b) by (apply (find_block_nodup _ _ su_nd IN)).
      destruct (gr_preds _ _ _ GR x bn INx) as (pb & ts & G1 & G2 & G3 & G4); [rewrite EP; now left|].
      assert (pb = b) by (apply block_eq; auto). subst pb. unfold targets in G3.
      rewrite (S4 _ NB). unfold pushed in C9.
      destruct (last_instr (b_instrs b)) as [[| | | | | | |t|cnd t e| | ]|] eqn:L; try discriminate G3; injection G3 as <-; try destruct G4.
      * subst t. rewrite (C9 _ NB), (S2 _ NB). split; auto. split; auto. split; auto. split.
        -- intros _. rewrite U4. exists b. split; auto. now rewrite L.
        -- intros _. exact U4.
      * destruct H.
      * destruct cnd as [c []| | |]; try (destruct C9; fail). destruct C9 as (o & O1 & O2 & O3 & O4).
        assert (PO : dget (prims (st v' bn)) c = Some o) by (destruct F2 as (F2 & _); now rewrite F2). subst e.
        rewrite O3, (S2 _ NB). cbn [with_precond prims ptrs l_asserts l_precond]. split; auto. split; auto. split; auto. rewrite U4. cbn [app]. split.
        -- intros _. exists b. split; auto. rewrite L. exists o. auto.
        -- intros N. exfalso. apply N. rewrite VD. apply in_or_app. right. now left.
      * destruct cnd as [c []| | |]; try (destruct C9; fail). destruct C9 as (o & O1 & O2 & O3 & O4). destruct H as [H|[]].
        assert (PO : dget (prims (st v' bn)) c = Some o) by (destruct F2 as (F2 & _); now rewrite F2). subst t.
        rewrite O2, (S2 _ NB). cbn [with_precond prims ptrs l_asserts l_precond]. split; auto. split; auto. split; auto. rewrite U4. cbn [app]. split.
        -- intros _. exists b. split; auto. rewrite L. exists o. auto.
        -- intros N. exfalso. apply N. rewrite VD. apply in_or_app. right. now left.
    + destruct (CP x INx NB) as (K1 & K2 & K3). rewrite K1, K2, K3. split; auto. split; auto. split; auto. unfold pre_un in *.
      destruct (b_preds x) as [|p [|q ps]] eqn:EP; auto.
      { rewrite CT; auto. rewrite EP. intros []. }
      assert (NIN : ~ In bn (b_preds x)) by (rewrite EP; intros [->|[]]; now apply NEP).
      rewrite (CT x INx NB NIN). destruct U4 as [U4 U5]. rewrite VD. split.
      * intros X. apply in_app_or in X as [X|[E|[]]]; [|exfalso; apply NEP; now rewrite E].
        eapply edge_mono; [apply SD; exact X | now apply U4].
      * intros X. apply U5. intros Y. apply X, in_or_app. now left.
  - (* visited *)
    rewrite VD. intros x INx X. apply in_app_or in X as [X|[E|[]]].
    + destruct (iv_dn _ V x INx X) as (s1 & s2 & VI). exists s1, s2. eapply visited_mono; eauto. apply (iv_ord _ V).
    + assert (x = b) by (symmetry; apply block_eq; auto). subst x. exists (st v1 bn), (st v2 bn). clear E. fold bn. constructor; fold bn; auto.
      * exists d, []. split; [exact VD|]. split; [exact A3|]. split; [exact A4|]. split; [exact B3|]. split; [exact F4|].
        intros n o E. rewrite (ext_sget _ _ _ F2) in E. apply (C5 n o E).
      * eapply merge_mono; [|exact A6]. intros p P. apply SD. auto.
      * destruct (header_loops los bn) as [|q l]; auto. eapply entered_mono; [exact PM | exact B6].
      * destruct F2 as (_ & _ & F2 & _). congruence.
      * intros n N. rewrite (ext_sget _ _ _ F2). now apply C7.
      * intros hv Y C n o x INn E. rewrite (ext_sget _ _ _ F2) in E. revert n o x INn E. apply C11, C.
      * eapply ext_run; eauto.
  - intros E. rewrite VD in E. destruct d; discriminate.
  - intros x X E. rewrite VD in X. apply in_app_or in X as [X|[<-|[]]].
    + rewrite SD in E by exact X. apply (iv_bare _ V); auto.
    + destruct F2 as (_ & _ & F2 & _). rewrite F2, C6 in E. destruct (header_loops los bn) as [|q l] eqn:HL.
      * rewrite B6 in E. auto.
      * destruct B6 as (_ & _ & (p & i & _ & _ & H)). rewrite H in E. destruct (l_precond (st v1 bn)); discriminate.
Qed.

Lemma inv_start : INV (new_visitor pre).
Proof.
  constructor; cbn; auto; try discriminate.
  - split; discriminate.
  - intros b IN _. split; auto. split; auto. split; auto. unfold pre_un. destruct (b_preds b) as [|p [|q ps]]; auto. split; auto. intros [].
  - intros b _ [].
  - intros b [].
  - split; discriminate.
  - intros l1 x l2 E. destruct l1; discriminate.
Qed.

Theorem inv_reach v : reach fn (lf_ret f) fargs (lf_sret f) uninterp los grammars bs (new_visitor pre) v -> INV v.
Proof.
  intros R. induction R as [|v b v' R IH IN RD VB]; [apply inv_start|]. eapply visit_inv; eauto.
  eapply (reach_ordered _ _ _ _ _ _ _ _ (new_visitor pre)); [reflexivity|]. eapply reach1; eauto.
Qed.

Theorem inv_final fuel V : passes fn (lf_ret f) fargs (lf_sret f) uninterp los grammars bs fuel (new_visitor pre) = Ok V ->
  INV V /\ forall b, In b bs -> In (b_name b) (v_done V).
Proof.
  intros H. apply passes_reach in H as [R NR]. pose proof (inv_reach _ R) as V0. split; auto.
  destruct sup_all as (_ & _ & O & _). unfold ok_order in O. apply andb_true_iff in O as [O1 O2]. rewrite forallb_forall in O2.
  assert (H : forall rest done, incl done (v_done V) -> in_order bs done rest = true -> incl rest (v_done V)).
  { induction rest as [|x rest IH]; intros done INC K; [intros y []|]. cbn [in_order] in K. apply andb_true_iff in K as [K1 K2].
    destruct (find_block bs x) as [bl|] eqn:FB; [|discriminate]. destruct (find_block_in _ _ _ FB) as [INb <-]. rewrite forallb_forall in K1.
    assert (X : In (b_name bl) (v_done V)).
    { destruct (in_dec string_dec (b_name bl) (v_done V)) as [|N]; auto. exfalso. 
      assert (ready V bl = true); [|rewrite NR in *; [discriminate | exact INb]]. apply ready_ok. split; auto. intros p P. apply INC, smem_in. auto. }
    intros y [<-|Y]; [exact X|]. apply (IH (b_name bl :: done)); auto. intros z [<-|Z]; auto. }
  intros b IN. apply (H (a_order an) []); [intros y [] | exact O1|]. apply smem_in. auto.
Qed.
End Run.
