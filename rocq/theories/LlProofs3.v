(** Proofs about the LLVM frontend, part 3: where several paths meet. *)

From Coq Require Import String List ZArith Bool Lia.
From Verif Require Import Ast Semantics Dict IrProofs IrProofs3 ObjModel UtilModel UtilProofs PyModel PySem PyProofs PyProofs2 PyProofs3 PyProofs4 LlModel LlSem LlProofs LlProofs2.
Import ListNotations.
Local Open Scope list_scope.

(** ** Grouping the values *)

Definition item : Type := (list expr * string * expr)%type.
Definition gather1 (acc : dict values) (i : item) : dict values :=
  dset acc (snd (fst i)) (add_value (snd i) (fst (fst i)) (match dget acc (snd (fst i)) with Some vs => vs | None => [] end)).
Definition items (sel : lstate -> dict obj) (ss : list lstate) : list item :=
  flat_map (fun s => map (fun p => (l_precond s, fst p, o_src (snd p))) (sel s)) ss.

Lemma gather_items sel ss : gather sel ss = fold_left gather1 (items sel ss) [].
Proof.
  unfold gather, items. generalize (@nil (string * values)). induction ss as [|s ss IH]; intros acc; cbn [fold_left flat_map]; auto.
  rewrite fold_left_app, IH. f_equal. unfold gather_vars. generalize acc as a. induction (sel s) as [|[x o] d IHd]; intros a; cbn; auto.
Qed.

(** all groups come from items *)
Definition from_items (l : list item) (x : string) (vs : values) : Prop :=
  vs <> [] /\ forall e pcs, In (e, pcs) vs -> pcs <> [] /\ (exists pc, In (pc, x, e) l) /\
    forall pc, In pc pcs -> exists e', In (pc, x, e') l /\ expr_eqb e e' = true.

Lemma add_value_ne e pc vs : add_value e pc vs <> [].
Proof. destruct vs as [|[e' pcs] vs]; cbn; [discriminate|]. destruct (expr_eqb e' e); discriminate. Qed.
Lemma add_value_in e pc vs : exists e' pcs, In (e', pcs) (add_value e pc vs) /\ In pc pcs /\ expr_eqb e' e = true.
Proof.
  induction vs as [|[e1 pcs1] vs IH]; cbn.
  - exists e, [pc]. cbn. split; auto. split; auto. apply expr_eqb_refl.
  - destruct (expr_eqb e1 e) eqn:E.
    + exists e1, (pcs1 ++ [pc]). cbn. split; auto. split; auto. apply in_or_app. cbn. auto.
    + destruct IH as (e' & pcs & A & B & C). exists e', pcs. cbn. auto.
Qed.
Lemma add_value_keep e pc vs e' pcs : In (e', pcs) vs -> exists pcs', In (e', pcs') (add_value e pc vs) /\ incl pcs pcs'.
Proof.
  induction vs as [|[e1 pcs1] vs IH]; cbn; [tauto|]. intros [[= -> ->]|IN].
  - destruct (expr_eqb e' e); [exists (pcs ++ [pc]); cbn; split; auto; intros q Q; apply in_or_app; auto|].
    exists pcs. cbn. split; auto. apply incl_refl.
  - destruct (expr_eqb e1 e); [exists pcs; cbn; split; auto; apply incl_refl|].
    destruct (IH IN) as (pcs' & A & B). exists pcs'. cbn. auto.
Qed.
Lemma add_value_from l x e pc vs : (vs = [] \/ from_items l x vs) -> In (pc, x, e) l -> from_items l x (add_value e pc vs).
Proof.
  intros H IN. split; [apply add_value_ne|]. 
  assert (H' : forall e pcs, In (e, pcs) vs -> pcs <> [] /\ (exists pc, In (pc, x, e) l) /\
    forall pc, In pc pcs -> exists e', In (pc, x, e') l /\ expr_eqb e e' = true).
  { destruct H as [->|[_ H]]; [intros ? ? []|exact H]. }
  clear H. induction vs as [|[e1 pcs1] vs IH]; intros e' pcs; cbn.
  - intros [[= <- <-]|[]]. split; [discriminate|]. split; [eauto|]. intros q [<-|[]]. exists e. split; auto. apply expr_eqb_refl.
  - destruct (expr_eqb e1 e) eqn:E.
    + intros [[= <- <-]|IN']; [|apply H'; now right]. destruct (H' e1 pcs1 (or_introl eq_refl)) as (A & B & C).
      split; [destruct pcs1; discriminate|]. split; auto. intros q Q. apply in_app_or in Q as [Q|[<-|[]]]; [auto|].
      exists e. auto.
    + intros [[= <- <-]|IN']; [apply H'; now left|]. apply IH; auto. intros e2 pcs2 IN2. apply H'. now right.
Qed.
Lemma from_items_more l l' x vs : incl l l' -> from_items l x vs -> from_items l' x vs.
Proof.
  intros I [A B]. split; auto. intros e pcs IN. destruct (B e pcs IN) as (C & (pc & D) & E). split; auto. split; [eauto|].
  intros q Q. destruct (E q Q) as (e' & F & G). eauto.
Qed.

Lemma gather_facts l : let d := fold_left gather1 l [] in
  NoDup (dkeys d) /\
  (forall x vs, dget d x = Some vs -> from_items l x vs) /\
  (forall pc x e, In (pc, x, e) l -> exists vs e' pcs, dget d x = Some vs /\ In (e', pcs) vs /\ In pc pcs /\ expr_eqb e' e = true).
Proof.
  induction l as [|i l IH] using rev_ind; cbn zeta.
  - cbn. split; [constructor|]. split; [discriminate | tauto].
  - rewrite fold_left_app. cbn [fold_left]. destruct IH as (A & B & C). set (d := fold_left gather1 l []) in *.
    destruct i as [[pc x] e]. unfold gather1; cbn [fst snd]. split; [now apply dset_nodup|].
    assert (INC : incl l (l ++ [(pc, x, e)])) by (intros q Q; apply in_or_app; auto).
    assert (LAST : In (pc, x, e) (l ++ [(pc, x, e)])) by (apply in_or_app; cbn; auto). split.
    + intros y vs. rewrite dget_dset. destruct (String.eqb_spec y x) as [->|N].
      * intros [= <-]. apply add_value_from; auto. destruct (dget d x) eqn:E; auto. right. eapply from_items_more; eauto.
      * intros E. eapply from_items_more; eauto.
    + intros pc' y e' IN. apply in_app_or in IN as [IN|[[= <- <- <-]|[]]].
      * destruct (C pc' y e' IN) as (vs & e1 & pcs & D & E & F & G). rewrite dget_dset. destruct (String.eqb_spec y x) as [->|N]; [|exists vs, e1, pcs; auto].
        rewrite D. destruct (add_value_keep e pc vs e1 pcs E) as (pcs' & E' & I'). exists (add_value e pc vs), e1, pcs'. auto.
      * rewrite dget_dset, String.eqb_refl. destruct (add_value_in e pc (match dget d x with Some vs => vs | None => [] end)) as (e1 & pcs & D & E & F).
        eexists _, e1, pcs. eauto.
Qed.

(** ** Merged values *)

Section Merge.
Variables (I : interp) (an : annot) (sn : option string).
Notation G := (G an).
Notation okobj := (okobj I an sn).
Notation okcond := (okcond I an).
Notation okst := (okst I an sn).
Notation ns := (ns an sn).
Notation gobj := (gobj an sn).
Definition tru (r : env) (e : expr) : Prop := eval I r e = Some (VBool true).

Lemma okcond_bools S es r : Forall (okcond S) es -> fits G r -> exists bs, mapO (eval I r) es = Some (map VBool bs) /\
  (forallb (fun x => x) bs = true <-> Forall (tru r) es) /\ (existsb (fun x => x) bs = true <-> Exists (tru r) es).
Proof.
  intros F R. induction F as [|e es [_ V] _ (bs & M & A & B)].
  - exists []. split; [reflexivity|]. split; split; intros H; auto; [discriminate | inversion H].
  - destruct (V r R) as [b E]. exists (b :: bs). cbn [mapO map forallb existsb]. rewrite E, M. split; [reflexivity|].
    rewrite andb_true_iff, orb_true_iff, A, B. unfold tru in *. split; split.
    + intros [-> H]. constructor; auto.
    + intros H. inversion H; subst. split; auto. congruence.
    + intros [->|H]; [now apply Exists_cons_hd | now apply Exists_cons_tl].
    + intros H. inversion H; subst; [left; congruence | auto].
Qed.
Lemma okcond_plain S es : Forall (okcond S) es -> Forall (fun e => pl true e = true) es.
Proof. apply Forall_impl. intros e [[P _] _]. exact P. Qed.
Lemma okcond_good S es : Forall (okcond S) es -> Forall (goodb S) es.
Proof. apply Forall_impl. now intros e []. Qed.

Lemma and_okcond S es c : and_objects es = Ok c -> Forall (okcond S) es ->
  okcond S c /\ forall r, fits G r -> (tru r c <-> Forall (tru r) es).
Proof.
  intros N F. assert (V : forall r, fits G r -> exists b, eval I r c = Some (VBool b) /\ (b = true <-> Forall (tru r) es)).
  { intros r R. destruct (okcond_bools S es r F R) as (bs & M & A & _).
    rewrite (objects_valueb I r KAnd _ _ _ (or_introl eq_refl) N (okcond_plain S es F) M). eauto. }
  split.
  - constructor; [eapply (objects_goodb KAnd); eauto using okcond_good; now left|]. intros r R. destruct (V r R) as (b & E & _). eauto.
  - intros r R. destruct (V r R) as (b & E & B). unfold tru at 1. rewrite E, <- B. split; congruence.
Qed.
Lemma or_okcond S es c : or_objects es = Ok c -> Forall (okcond S) es ->
  okcond S c /\ forall r, fits G r -> (tru r c <-> Exists (tru r) es).
Proof.
  intros N F. assert (K : In KOr [KAnd; KOr]) by (cbn; auto).
  assert (V : forall r, fits G r -> exists b, eval I r c = Some (VBool b) /\ (b = true <-> Exists (tru r) es)).
  { intros r R. destruct (okcond_bools S es r F R) as (bs & M & _ & A).
    rewrite (objects_valueb I r KOr _ _ _ K N (okcond_plain S es F) M). eauto. }
  split.
  - constructor; [eapply (objects_goodb KOr); eauto using okcond_good|]. intros r R. destruct (V r R) as (b & E & _). eauto.
  - intros r R. destruct (V r R) as (b & E & B). unfold tru at 1. rewrite E, <- B. split; congruence.
Qed.

(** the disjunction of conjunctions *)
Lemma ands_ok S pcs cs : mapR and_objects pcs = Ok cs -> Forall (Forall (okcond S)) pcs ->
  Forall (okcond S) cs /\ forall r, fits G r -> (Exists (tru r) cs <-> Exists (Forall (tru r)) pcs).
Proof.
  revert cs. induction pcs as [|pc pcs IH]; intros cs M F; cbn [mapR] in M.
  - injection M as <-. split; [constructor|]. intros r R. split; intros H; inversion H.
  - ok M c Ec. ok M cs' Ecs. injection M as <-. inversion F as [|? ? F1 F2]; subst. destruct (IH _ Ecs F2) as [A B].
    destruct (and_okcond S pc c Ec F1) as [C D]. split; [constructor; auto|]. intros r R. rewrite !Exists_cons, (B r R), (D r R). tauto.
Qed.
Lemma filter_nonempty pcs : Forall (fun pc => pc <> []) pcs -> filter nonempty pcs = pcs.
Proof. induction 1 as [|pc pcs N F IH]; cbn; auto. destruct pc; [congruence|]. cbn. now rewrite IH. Qed.

Lemma value_cond_ok S pcs c : value_cond pcs = Ok c -> pcs <> [] -> Forall (fun pc => pc <> []) pcs -> Forall (Forall (okcond S)) pcs ->
  okcond S c /\ forall r, fits G r -> (tru r c <-> Exists (Forall (tru r)) pcs).
Proof.
  intros V NE N F. unfold value_cond in V. rewrite filter_nonempty in V by auto. ok V cs Ecs. destruct (ands_ok S _ _ Ecs F) as [A B].
  destruct cs as [|c1 cs]; [destruct pcs; [congruence | cbn in Ecs; destruct (and_objects l); try discriminate; cbn in Ecs; destruct (mapR and_objects pcs); discriminate]|].
  destruct (or_okcond S _ _ V A) as [C D]. split; auto. intros r R. rewrite (D r R), (B r R). tauto.
Qed.

(** expressions for a register *)
Record okexpr (S : list string) (n : name) (e : expr) : Prop := {
  ox_good : gobj S n e; ox_type : exists u, type_of e = Ok u /\ junk an n || label_ok an n u = true;
  ox_val : forall r, fits G r -> exists v, eval I r e = Some v /\ Pn an n v = true }.
Lemma okobj_expr S n o : okobj S n o <-> type_of (o_src o) = Ok (o_ty o) /\ okexpr S n (o_src o).
Proof.
  split; [intros [A B C D]; split; auto; constructor; eauto | intros [A [B (u & C1 & C2) D]]; constructor; auto; congruence].
Qed.
Lemma gobj_ite S n t c a b : goodb S c -> gobj S n a -> gobj S n b -> gobj S n (Node KIte t [c; a; b]).
Proof.
  intros [Pc Vc] (Va & Pa & Qa) (Vb & Pb & Qb).
  assert (Vc' : incl (fv c) (ns S n)) by (eapply incl_tran; [exact Vc | apply ns_incl]).
  split; [|split; intros H; cbn [pl]; rewrite Pc; cbn [andb]].
  - cbn [fv flat_map]. rewrite app_nil_r. apply incl_app; auto. apply incl_app; auto.
  - now rewrite (Pa H), (Pb H).
  - now rewrite (Qa H), (Qb H).
Qed.

Lemma merge_values_ok S n vs : Forall (fun p => okexpr S n (fst p) /\ okcond S (snd p)) vs -> forall acc e,
  okexpr S n acc -> merge_values acc vs = Ok e ->
  okexpr S n e /\ forall r w, fits G r -> (forall e' c, In (e', c) vs -> tru r c -> eval I r e' = Some w) ->
    (Exists (fun p => tru r (snd p)) vs \/ eval I r acc = Some w) -> eval I r e = Some w.
Proof.
  induction 1 as [|[e1 c1] vs [O1 O2] F IH]; intros acc e OA M; cbn [merge_values] in M.
  - injection M as <-. split; auto. intros r w _ _ [H|H]; [inversion H | auto].
  - cbn [fst snd] in *. ok M acc' Ea.
    destruct (ox_type _ _ _ O1) as (t & TY1 & LB1). assert (OA' : acc' = Node KIte t [c1; e1; acc]).
    { unfold mkIte in Ea. ok Ea tc Etc. destruct (negb (ty_eqb tc TBool)); [discriminate|]. ok Ea ta Eta. ok Ea tb Etb. destruct (ty_eqb ta tb); [|discriminate].
      rewrite TY1 in Eta. congruence. }
    assert (EV : forall r b, eval I r c1 = Some (VBool b) -> eval I r acc' = if b then eval I r e1 else eval I r acc).
    { intros r b E. rewrite OA'. cbn. rewrite E. now destruct b. }
    destruct O2 as [G2 V2]. assert (OK : okexpr S n acc').
    { constructor.
      - rewrite OA'. apply gobj_ite; [exact G2 | apply (ox_good _ _ _ O1) | apply (ox_good _ _ _ OA) ].
      - exists t. rewrite OA'. split; [reflexivity | exact LB1].
      - intros r R. destruct (V2 r R) as [b E]. rewrite (EV r b E). destruct b; [apply (ox_val _ _ _ O1 r R) | apply (ox_val _ _ _ OA r R)]. }
    destruct (IH acc' e OK M) as [A B]. split; auto. intros r w R H D.
    destruct (V2 r R) as [b E]. apply B; auto; [intros e' c IN; apply H; now right|].
    rewrite (EV r b E). destruct b.
    + right. apply (H e1 c1); [now left | exact E].
    + destruct D as [D|D]; [|auto]. left. inversion D as [? ? T|]; subst; auto. cbn in T. unfold tru in T. congruence.
Qed.

Definition okgroup (S : list string) (n : name) (p : expr * list (list expr)) : Prop :=
  okexpr S n (fst p) /\ snd p <> [] /\ Forall (fun pc => pc <> []) (snd p) /\ Forall (Forall (okcond S)) (snd p).

Lemma merge_var_ok S n vs o : merge_var vs = Ok o -> Forall (okgroup S n) vs ->
  okobj S n o /\ forall r e pcs, fits G r -> In (e, pcs) vs -> Exists (Forall (tru r)) pcs ->
    (forall e' pcs', In (e', pcs') vs -> Exists (Forall (tru r)) pcs' -> eval I r e' = eval I r e) ->
    eval I r (o_src o) = eval I r e.
Proof.
  intros M F. unfold merge_var in M. ok M e Ee. ok M t' Et.
  assert (H : okexpr S n e /\ forall r e0 pcs, fits G r -> In (e0, pcs) vs -> Exists (Forall (tru r)) pcs ->
    (forall e' pcs', In (e', pcs') vs -> Exists (Forall (tru r)) pcs' -> eval I r e' = eval I r e0) -> eval I r e = eval I r e0).
  { clear M Et. destruct vs as [|[e1 pcs1] [|[e2 pcs2] vs]]; [discriminate| |].
    - injection Ee as <-. inversion F as [|? ? [O _] _]; subst. split; auto. intros r e0 pcs R [[= <- <-]|[]] _ _. reflexivity.
    - set (V := (e1, pcs1) :: (e2, pcs2) :: vs) in *. ok Ee cs Ecs.
      assert (C : Forall2 (fun p q => fst q = fst p /\ okexpr S n (fst p) /\ okcond S (snd q) /\
                    forall r, fits G r -> (tru r (snd q) <-> Exists (Forall (tru r)) (snd p))) V cs).
      { clear Ee. clearbody V. revert cs Ecs. induction F as [|[e' pcs'] V' (O & N1 & N2 & N3) F IH]; intros cs M; cbn [mapR] in M.
        - injection M as <-. constructor.
        - ok M p Ep. ok M cs' Ecs. injection M as <-. ok Ep c Ec. injection Ep as <-. cbn [fst snd] in *. constructor; [|now apply IH].
          destruct (value_cond_ok S pcs' c Ec N1 N2 N3). cbn. auto. }
      inversion C as [|p0 q0 V0 cs0 (Q1 & Q2 & Q3 & Q4) C0]; subst V0 cs. clear C. destruct q0 as [e1' c1]. cbn [fst snd] in *. subst p0 e1'. cbn [fst snd] in *.
      assert (FF : Forall (fun p => okexpr S n (fst p) /\ okcond S (snd p)) cs0).
      { clear - C0. induction C0 as [|p q V cs (A & B & C & D) F IH]; constructor; auto. rewrite A. auto. }
      destruct (merge_values_ok S n cs0 FF e1 e Q2 Ee) as [A B]. split; auto. intros r e0 pcs R IN EX UN.
      destruct (ox_val _ _ _ A r R) as (w0 & W0 & _).
      assert (W : exists w, eval I r e0 = Some w).
      { rewrite Forall_forall in F. destruct (F _ IN) as (O & _). destruct (ox_val _ _ _ O r R) as (w & E & _). eauto. }
      destruct W as [w W]. rewrite W. apply B; auto.
      + intros e' c IN' T. rewrite <- W. 
        assert (exists pcs', In (e', pcs') ((e2, pcs2) :: vs) /\ Exists (Forall (tru r)) pcs') as (pcs' & I1 & I2).
        { clear - C0 IN' T R. induction C0 as [|[ep pp] [eq cq] V cs (A & B & C & D) F IH]; [destruct IN'|].
          cbn [fst snd] in *. destruct IN' as [[= -> ->]|IN']; [exists pp; subst; split; [now left | now apply D]|].
          destruct (IH IN') as (pcs' & ? & ?). exists pcs'. split; [now right | auto]. }
        apply (UN e' pcs'); auto. now right.
      + destruct IN as [[= <- <-]|IN]; [right; exact W|]. left.
        clear - C0 IN EX R. induction C0 as [|[ep pp] [eq cq] V cs (A & B & C & D) F IH]; [destruct IN|].
        cbn [fst snd] in *. destruct IN as [[= -> ->]|IN]; [apply Exists_cons_hd; now apply D | apply Exists_cons_tl; auto]. }
  destruct H as [A B]. apply create_ok in M. subst o.
  split; [now apply okobj_expr | exact B].
Qed.

Definition sel_of (ptr : bool) : lstate -> dict obj := fun s => if ptr then ptrs s else prims s.

Lemma merge_keys d d' : mapR (fun p : string * values => o <- merge_var (snd p) ;; Ok (fst p, o)) d = Ok d' ->
  dkeys d' = dkeys d /\ forall x, match dget d x with
    | Some vs => exists o, merge_var vs = Ok o /\ dget d' x = Some o | None => dget d' x = None end.
Proof.
  revert d'. induction d as [|[y vs] d IH]; intros d' M; cbn [mapR] in M.
  - injection M as <-. split; auto. intros x. reflexivity.
  - ok M p Ep. ok M d1 E1. injection M as <-. ok Ep o Eo. injection Ep as <-. destruct (IH _ E1) as [A B]. cbn [fst snd] in *.
    split; [cbn; unfold dkeys in *; congruence|]. intros x. cbn. destruct (String.eqb x y); [eauto | apply B].
Qed.

Lemma merge_dict_ok S ptr ss d : merge_dict (sel_of ptr) ss = Ok d -> Forall (okst S) ss -> Forall (fun s => l_precond s <> []) ss ->
  NoDup (dkeys d) /\
  (forall x o, dget d x = Some o -> okobj S (ptr, x) o /\ exists s, In s ss /\ sget s (ptr, x) <> None) /\
  (forall r s x o, junk an (ptr, x) = false -> fits G r -> In s ss -> Forall (tru r) (l_precond s) -> sget s (ptr, x) = Some o ->
     (forall s' o', In s' ss -> Forall (tru r) (l_precond s') -> sget s' (ptr, x) = Some o' -> eval I r (o_src o') = eval I r (o_src o)) ->
     exists o', dget d x = Some o' /\ eval I r (o_src o') = eval I r (o_src o)).
Proof.
  intros M OS NE. unfold merge_dict in M. rewrite gather_items in M. destruct (merge_keys _ _ M) as [K B].
  destruct (gather_facts (items (sel_of ptr) ss)) as (N & FR & CO). set (gd := fold_left gather1 (items (sel_of ptr) ss) []) in *.
  rewrite Forall_forall in OS, NE.
  assert (IT : forall pc x e, In (pc, x, e) (items (sel_of ptr) ss) -> exists s o, In s ss /\ sget s (ptr, x) = Some o /\ e = o_src o /\ pc = l_precond s).
  { intros pc x e IN. apply in_flat_map in IN as (s & INs & IN). apply in_map_iff in IN as ([y o] & [= <- <- <-] & IN). cbn [fst snd].
    exists s, o. split; auto. split; auto. unfold sget; cbn [fst snd]. unfold sel_of in IN.
    destruct ptr; apply nodup_dget; auto; [apply (os_nd2 _ _ _ _ _ (OS s INs)) | apply (os_nd1 _ _ _ _ _ (OS s INs))]. }
  assert (GRP : forall x vs, dget gd x = Some vs -> Forall (okgroup S (ptr, x)) vs).
  { intros x vs E. destruct (FR x vs E) as [NV F]. rewrite Forall_forall. intros [e pcs] IN.
    destruct (F e pcs IN) as (P1 & (pc & P2) & P3). destruct (IT _ _ _ P2) as (s & o & Q1 & Q2 & -> & _).
    pose proof (os_obj _ _ _ _ _ (OS s Q1) _ _ Q2) as OV. apply okobj_expr in OV as [_ OV].
    split; [exact OV|]. split; auto. cbn [snd]. split; rewrite Forall_forall; intros q Q; destruct (P3 q Q) as (e' & R1 & _); destruct (IT _ _ _ R1) as (s' & o' & R2 & _ & _ & ->);
      [apply NE; auto | apply (os_pre _ _ _ _ _ (OS s' R2))]. }
  split; [rewrite K; exact N|]. split.
  - intros x o E. specialize (B x). destruct (dget gd x) as [vs|] eqn:GV; [|congruence]. destruct B as (o' & MV & E'). rewrite E in E'. injection E' as <-.
    destruct (merge_var_ok S (ptr, x) vs o MV (GRP x vs GV)) as [OV _]. split; auto.
    destruct (FR x vs GV) as [NV F']. destruct vs as [|[e pcs] vs]; [congruence|]. destruct (F' e pcs (or_introl eq_refl)) as (_ & (pc & P) & _).
    destruct (IT _ _ _ P) as (s & o1 & Q1 & Q2 & _). exists s. split; auto. congruence.
  - intros r s x o NJ R IN T SG UN.
    assert (INI : In (l_precond s, x, o_src o) (items (sel_of ptr) ss)).
    { apply in_flat_map. exists s. split; auto. apply in_map_iff. exists (x, o). split; auto. unfold sget in SG; cbn [fst snd] in SG. unfold sel_of.
      destruct ptr; now apply dget_in. }
    destruct (CO _ _ _ INI) as (vs & e' & pcs & GV & INV & INP & EQ).
    specialize (B x). rewrite GV in B. destruct B as (o' & MV & E'). exists o'. split; auto.
    destruct (merge_var_ok S (ptr, x) vs o' MV (GRP x vs GV)) as [OV EV].
    destruct (FR x vs GV) as [NV F'].
    assert (SAME : forall e1 pcs1, In (e1, pcs1) vs -> Exists (Forall (tru r)) pcs1 -> eval I r e1 = eval I r (o_src o)).
    { intros e1 pcs1 IN1 EX1. apply Exists_exists in EX1 as (pc1 & INpc & TR). destruct (F' e1 pcs1 IN1) as (_ & (pc & P) & P3).
      destruct (P3 pc1 INpc) as (e2 & P4 & P5). destruct (IT _ _ _ P4) as (s2 & o2 & Q1 & Q2 & -> & ->).
      destruct (IT _ _ _ P) as (s3 & o3 & U1 & U2 & -> & _).
      destruct (oo_good _ _ _ _ _ _ (os_obj _ _ _ _ _ (OS s2 Q1) _ _ Q2)) as (_ & V2 & W2).
      destruct (oo_good _ _ _ _ _ _ (os_obj _ _ _ _ _ (OS s3 U1) _ _ U2)) as (_ & V3 & W3). rewrite NJ in V2, V3. cbn [orb] in V2, V3.
      rewrite <- (UN s2 o2 Q1 TR Q2). apply (equal_same_value I); auto. destruct (lit an (ptr, x)) eqn:LT.
      - apply (pl_agree _ true); auto; [apply W3 | apply W2]; unfold lit in LT; destruct (reg_ty an (ptr, x)) as [[]|]; congruence.
      - apply (pl_agree _ false); auto. }
    assert (EX : Exists (Forall (tru r)) pcs) by (apply Exists_exists; eauto).
    rewrite (EV r e' pcs R INV EX); [apply (SAME e' pcs INV EX)|]. intros e1 pcs1 IN1 EX1. now rewrite (SAME _ _ IN1 EX1), (SAME _ _ INV EX).
Qed.

(** ** Merged states *)

(** what [merge_states] makes of the states of at least two predecessors *)
Record merged (ss : list lstate) (pc0 : list expr) (s1 : lstate) : Prop := {
  mg_pc : exists cs, mapR and_objects (filter nonempty (map l_precond ss)) = Ok cs /\
          match cs with [] => l_precond s1 = pc0 | _ => exists c, or_objects cs = Ok c /\ l_precond s1 = [c] end;
  mg_prims : merge_dict prims ss = Ok (prims s1);
  mg_ptrs : merge_dict ptrs ss = Ok (ptrs s1) }.

Lemma merged_ok S ss pc0 s1 : merged ss pc0 s1 -> ss <> [] -> Forall (okst S) ss -> Forall (fun s => l_precond s <> []) ss ->
  l_asserts s1 = [] ->
  okst S s1 /\ (forall n o, sget s1 n = Some o -> exists s, In s ss /\ sget s n <> None) /\ l_precond s1 <> [] /\
  (forall r, fits G r -> (Forall (tru r) (l_precond s1) <-> Exists (fun s => Forall (tru r) (l_precond s)) ss)) /\
  (forall r s n o, junk an n = false -> fits G r -> In s ss -> Forall (tru r) (l_precond s) -> sget s n = Some o ->
     (forall s' o', In s' ss -> Forall (tru r) (l_precond s') -> sget s' n = Some o' -> eval I r (o_src o') = eval I r (o_src o)) ->
     exists o', sget s1 n = Some o' /\ eval I r (o_src o') = eval I r (o_src o)).
Proof.
  intros [(cs & CS & PC) M1 M2] NN OS NE NA.
  destruct (merge_dict_ok S false ss _ M1 OS NE) as (A1 & A2 & A3). destruct (merge_dict_ok S true ss _ M2 OS NE) as (B1 & B2 & B3).
  rewrite filter_nonempty in CS by (rewrite Forall_map; exact NE).
  assert (OP : Forall (Forall (okcond S)) (map l_precond ss)).
  { rewrite Forall_map. eapply Forall_impl; [|exact OS]. intros s O. apply (os_pre _ _ _ _ _ O). }
  destruct (ands_ok S _ _ CS OP) as [C1 C2].
  destruct cs as [|c1 cs]; [exfalso; destruct ss as [|s ss]; [congruence|]; cbn [map mapR] in CS; destruct (and_objects (l_precond s)); cbn [bindR] in CS; try discriminate; destruct (mapR and_objects (map l_precond ss)); discriminate|].
  destruct PC as (c & OC & PC). destruct (or_okcond S _ _ OC C1) as [D1 D2].
  split; [|split; [|split; [|split]]].
  - constructor; auto.
    + intros [[] x] o E; [apply (B2 x o E) | apply (A2 x o E)].
    + rewrite PC. constructor; [exact D1 | constructor].
    + rewrite NA. constructor.
  - intros [[] x] o E; [apply (B2 x o E) | apply (A2 x o E)].
  - rewrite PC. discriminate.
  - intros r R. rewrite PC. 
    assert (E : Exists (fun s => Forall (tru r) (l_precond s)) ss <-> Exists (Forall (tru r)) (map l_precond ss)).
    { clear. induction ss as [|s ss IH]; cbn; [split; intros H; inversion H|]. rewrite !Exists_cons, IH. tauto. }
    rewrite E, <- (C2 r R), <- (D2 r R). split; [intros H; now inversion H | intros H; constructor; [exact H | constructor]].
  - intros r s [[] x] o NJ R IN T SG UN; [apply (B3 r s x o) | apply (A3 r s x o)]; auto.
Qed.
End Merge.
