(** The generated instructions compute in every lane what the expression stands for. *)

From Coq Require Import String Ascii List ZArith Bool Lia QArith Qround.
From Verif Require Import Ast Dict Semantics SmtPrint UtilProofs IrProofs LibSem RktModel NpModel NpSem GdModel GdSem GdProofs1 GdProofs2 GdProofs3 GdProofs4 GdProofs5 GdProofs6.
Import ListNotations.
Local Open Scope nat_scope.
Local Open Scope string_scope.
Local Open Scope list_scope.

Section Value.
  Variables (tile : string -> option lanes) (st : cst) (d : dtype) (fns : list (string * expr)) (r : env) (o j : nat).
  Hypothesis Hsum : forall t w, st "sum" = Some (t, w) -> exists q, w = Sc q.
  Hypothesis Henv : forall x v, r x = Some (emb v) -> proper v ->
    (forall l, tile x = Some l -> forall k z, elem v (o + k) j = Some z -> (l k == inject_Z z)%Q) /\
    (forall t w, st x = Some (t, w) -> exists z q, v = DZ z /\ w = Sc q /\ (q == inject_Z z)%Q).
  Notation value := (value st d).
  Notation typed := (typed st d).
  Notation Holds := (Forall (holds tile st)).
  Notation den := (den fns d r o j).
  Notation vden := (vden r o j).

  Lemma den_range vars w e k z : den vars w e k z -> w = false -> in_range d z.
  Proof.
    induction 1; intros W; auto. match goal with H : _ \/ _ |- _ => destruct H as [H|(H & _)]; [exact H|congruence] end.
  Qed.

  (** what variables and literals stand for *)
  Definition bden (e : expr) (k : nat) (z : Z) : Prop :=
    match e with
    | Node KVar _ (Atom (PStr x) :: _) => vden x k z /\ in_range d z
    | Node KLit _ (Atom (PInt y) :: _) => y = z /\ in_range d z
    | _ => False
    end.
  Definition entry_ok (e : expr) (t : bt) (loc : list instr) (i : instr) : Prop :=
    Holds loc -> i_type i = Some t /\ typed (Some t) i /\ forall e2 k z, expr_eqb e2 e = true -> bden e2 k z -> value i k z.
  Definition cache_ok (s : gst) : Prop := forall e t loc i, In ((e, t), (loc, i)) (snd s) -> entry_ok e t loc i.

  Lemma cached_in c e t out : cached c e t = Some out -> exists e', In ((e', t), out) c /\ expr_eqb e e' = true.
  Proof.
    induction c as [|((e', t') & o') c IH]; cbn; [discriminate|]. destruct (expr_eqb e e' && bt_eqb t t') eqn:B.
    - intros [= <-]. apply andb_prop in B as (B1 & B2). apply bt_eqb_eq in B2 as ->. eauto.
    - intros E. destruct (IH E) as (e'' & I & Q). eauto.
  Qed.
  Lemma remember_ok e s loc i s' loc' i' t : remember e (s, loc, i) = Ok (s', (loc', i')) -> i_type i = Some t -> cache_ok s -> entry_ok e t loc i ->
    cache_ok s' /\ (Holds loc' -> i_type i' = Some t /\ typed (Some t) i' /\ forall k z, bden e k z -> value i' k z).
  Proof.
    intros E T C N. destruct (remember_inv _ _ _ _ _ _ _ _ E T) as [(Ca & ->)|(_ & -> & -> & ->)].
    - split; [exact C|]. intros H. apply cached_in in Ca as (e' & I & Q). destruct (C _ _ _ _ I H) as (T' & Ty & V). split; [exact T'|]. split; [exact Ty|]. intros k z. apply V, Q.
    - split.
      + intros e' t' loc' i' I. cbn in I. apply in_app_or in I as [I|[I|[]]]; [apply C, I|]. injection I as <- <- <- <-. exact N.
      + intros H. destruct (N H) as (T' & Ty & V). split; [exact T'|]. split; [exact Ty|]. intros k z. apply V, expr_eqb_refl.
  Qed.
  Lemma bden_var e2 k t x rest n z : is_var k -> expr_eqb e2 (Node k t (Atom (PStr x) :: rest)) = true -> bden e2 n z -> vden x n z /\ in_range d z.
  Proof.
    intros K E B. destruct e2 as [|k2 t2 [|a2 r2]]; [discriminate E|apply andb_prop in E as (_ & E); discriminate E|]. cbn in E.
    apply andb_prop in E as (Ek & E). apply andb_prop in E as (Ea & _). destruct K as [-> | ->]; destruct k2; try discriminate Ek; cbn in B.
    - destruct a2 as [[y| | |]|]; try contradiction B. cbn in Ea. apply String.eqb_eq in Ea as ->. exact B.
    - destruct a2 as [[y| | |]|]; contradiction B.
  Qed.
  Lemma bden_lit e2 t a rest n z : expr_eqb e2 (Node KLit t (Atom a :: rest)) = true -> bden e2 n z -> in_range d z /\ (a = PInt z \/ exists b, a = PBool b).
  Proof.
    intros E B. destruct e2 as [|k2 t2 [|a2 r2]]; [discriminate E|apply andb_prop in E as (_ & E); discriminate E|]. cbn in E.
    apply andb_prop in E as (Ek & E). apply andb_prop in E as (Ea & _). destruct k2; try discriminate Ek. cbn in B. destruct a2 as [[|y| |]|]; try contradiction B. destruct B as (-> & B).
    split; [exact B|]. destruct a; try discriminate Ea; cbn in Ea; [|eauto]. apply Z.eqb_eq in Ea as ->. auto.
  Qed.

  Lemma typed_or ov def t i : body_type d t = Ok def -> typed (Some (or_ ov def)) i -> typed ov i.
  Proof.
    intros B [H|(u & x & w & T & X & S & A & O)]; [left; exact H|right]. exists u, x, w. repeat split; auto. intros D F. specialize (O D F). injection O as O.
    destruct ov as [v|]; cbn in O; [congruence|]. destruct (body_type_allowed _ _ _ B) as (_ & N). destruct (N D). congruence.
  Qed.

  Definition oka (ov : option bt) : Prop := forall u, ov = Some u -> allowed d u.
  Lemma oka_or ov def t : oka ov -> body_type d t = Ok def -> allowed d (or_ ov def).
  Proof. intros O B. destruct ov as [u|]; [apply (O u eq_refl)|]. apply (body_type_allowed _ _ _ B). Qed.

  Lemma scalar_entry ov def t k x rest s s1 loc i : oka ov -> is_var k -> body_type d t = Ok def ->
    emit s [] (Some (CId x)) (Some (or_ ov def)) Fresh = Ok (s1, loc, i) ->
    i_type i = Some (or_ ov def) /\ snd s1 = snd s /\ entry_ok (Node k t (Atom (PStr x) :: rest)) (or_ ov def) loc i.
  Proof.
    intros O K B E. apply emit_let in E. injection E as -> -> ->. split; [reflexivity|]. split; [reflexivity|]. intros H.
    pose proof (oka_or _ _ _ O B) as A. inversion H as [|? ? H1 _]; subst. apply let_value in H1 as (v & w & E & N & S).
    split; [reflexivity|]. split; [right; exists (or_ ov def), (fresh (fst s)), w; repeat split; auto; congruence|].
    intros e2 n z Q Bd. destruct (bden_var _ _ _ _ _ _ _ K Q Bd) as ((dv & R & P & El) & Rg). destruct v as (tv & v). apply ceval_id in E as (E & _).
    destruct (proj2 (Henv _ _ R P) _ _ E) as (z' & q & -> & -> & Qz). cbn in El. injection El as ->.
    apply initial_inv in N as [(q' & [= <-] & N)|(N & _)]; [|destruct (N q eq_refl)]. pose proof (scalar_is d _ _ _ _ N A Rg Qz) as Is.
    exists (or_ ov def), (fresh (fst s)), w. repeat split; auto.
  Qed.
  Lemma lit_entry ov def t a rest s s1 loc i : oka ov -> body_type d t = Ok def ->
    emit s [] (Some (CLit a)) (Some (or_ ov def)) Fresh = Ok (s1, loc, i) ->
    i_type i = Some (or_ ov def) /\ snd s1 = snd s /\ entry_ok (Node KLit t (Atom a :: rest)) (or_ ov def) loc i.
  Proof.
    intros O B E. apply emit_let in E. injection E as -> -> ->. split; [reflexivity|]. split; [reflexivity|]. intros H.
    pose proof (oka_or _ _ _ O B) as A. inversion H as [|? ? H1 _]; subst. apply let_value in H1 as (v & w & E & N & S).
    split; [reflexivity|]. split; [right; exists (or_ ov def), (fresh (fst s)), w; repeat split; auto; congruence|].
    intros e2 n z Q Bd. destruct (bden_lit _ _ _ _ _ _ Q Bd) as (Rg & [-> |(b & ->)]); [|discriminate E]. cbn [ceval] in E. injection E as <-.
    pose proof (scalar_is d _ _ _ _ N A Rg (Qeq_refl _)) as Is. exists (or_ ov def), (fresh (fst s)), w. repeat split; auto.
  Qed.
  Lemma load_entry ov def t k x rest s s1 loc i : oka ov -> is_var k -> body_type d t = Ok def -> is_list_type t = true ->
    emit_as s [] (CApp ("v_" ++ fn_dtype d ++ "_ld_tnsr_b")%string [CId "inputCoord"; CId x]) def (Some (or_ ov def)) = Ok (s1, loc, i) ->
    i_type i = Some (or_ ov def) /\ snd s1 = snd s /\ entry_ok (Node k t (Atom (PStr x) :: rest)) (or_ ov def) loc i.
  Proof.
    intros O K B L E. pose proof (oka_or _ _ _ O B) as A. destruct (body_type_allowed _ _ _ B) as (Ad & Nd).
    assert (T : i_type i = Some (or_ ov def) /\ snd s1 = snd s).
    { apply emit_as_inv in E. cbv zeta in E. destruct E as [(-> & _ & -> & [X|X])|(u & [= <-] & -> & -> & _)]; [discriminate X|rewrite X|]; split; reflexivity. }
    split; [apply T|]. split; [apply T|]. intros H. split; [apply T|]. split.
    - apply (emit_as_typed tile st d _ _ _ _ _ _ _ _ E H A). intros _ F. cbn in F |- *. congruence.
    - intros e2 n z Q Bd. destruct (bden_var _ _ _ _ _ _ _ K Q Bd) as ((dv & R & P & El) & Rg).
      eapply (emit_as_value tile st d _ _ _ _ _ _ _ _ n z E H); auto.
      + left. exact Ad.
      + intros D. apply (Nd D).
      + intros v w C N. assert (Hl : exists t', dget loads ("v_" ++ fn_dtype d ++ "_ld_tnsr_b")%string = Some t') by (destruct d; eexists; reflexivity).
        destruct Hl as (t' & Hl). eapply ceval_load in C as (l & Tl & Ev); [|exact Hl]. subst v. apply initial_inv in N as [(q & [=] & _)|(_ & Et & ->)]. split.
        * apply is_ve. exact (proj1 (Henv _ _ R P) _ Tl _ _ El).
        * intros ->. exfalso. destruct d; cbn in Ad; intuition discriminate.
  Qed.

  Definition goal (e : expr) (ov : option bt) (vars : list (string * expr)) (s s' : gst) (loc : list instr) (i : instr) : Prop :=
    cache_ok s -> oka ov -> cache_ok s' /\
    (Holds loc -> typed ov i /\ forall w k z, (w = true -> d = UINT_8 /\ ov = Some FLOAT256) -> den vars w e k z -> value i k z).

  Lemma cache_ok_snd s s' : snd s' = snd s -> cache_ok s -> cache_ok s'.
  Proof. intros E C. unfold cache_ok. rewrite E. exact C. Qed.

  Lemma emit_as_loc s loc e t f s' loc' i : emit_as s loc e t f = Ok (s', loc', i) -> Holds loc' -> Holds loc /\ snd s' = snd s.
  Proof.
    intros E H. apply emit_as_inv in E. cbv zeta in E. destruct E as [(-> & -> & _)|(u & _ & -> & _ & ->)]; apply Forall_app in H; split; try apply H; reflexivity.
  Qed.
  Lemma emit_as_snd s loc e t f s' loc' i : emit_as s loc e t f = Ok (s', loc', i) -> snd s' = snd s.
  Proof. intros E. apply emit_as_inv in E. cbv zeta in E. destruct E as [(-> & _)|(u & _ & -> & _)]; reflexivity. Qed.
  Lemma div_tail_loc ov l1 i1 l2 i2 s s' loc i : div_tail ov (l1, i1) (l2, i2) s = Ok (s', (loc, i)) -> snd s' = snd s /\ (Holds loc -> Holds l1 /\ Holds l2).
  Proof.
    intros E. apply div_tail_inv in E as (x1 & x2 & _ & _ & E). cbv zeta in E. destruct E as [(_ & _ & E)|(_ & m & _ & -> & -> & _)].
    - split; [exact (emit_as_snd _ _ _ _ _ _ _ _ E)|]. intros H. destruct (emit_as_loc _ _ _ _ _ _ _ _ E H) as (H' & _).
      apply Forall_app in H' as (H' & _). apply Forall_app in H'. exact H'.
    - split; [reflexivity|]. intros H. apply Forall_app in H as (H & _). apply Forall_app in H. exact H.
  Qed.

  Lemma call_kind k : is_call k -> c_op k = None /\ k <> KVar /\ k <> KIte /\ k <> KLit.
  Proof. intros [-> | ->]; repeat split; discriminate. Qed.

  Theorem gen_value e ov vars s s' loc i : gen fns d e ov vars s s' loc i -> goal e ov vars s s' loc i.
  Proof.
    induction 1 as [k t x rest a ov vars s s' loc i K Dx Ga IHa|k t x rest def ov vars s r0 s' loc i K Dx B L E R|k t x rest def ov vars s r0 s' loc i K Dx B L E R
      |t c a b ov vars s s' loc i Ga IHa|t a rest def ov vars s r0 s' loc i B E R
      |k op t a b rest def ov vars s s1 l1 i1 s2 l2 i2 t1 t2 x1 x2 s' loc i Ko B Ga IHa Gb IHb T1 T2 P1 P2 X1 X2 E
      |k t a b rest pre a' b' ov vars s s1 l1 i1 s2 l2 i2 s' loc i Ko Ga IHa Gb IHb Pre Gt IHt
      |k t f ma mb rest def sel t' kc tc c0 c1 cs a b p q ps x y op ov vars s s0 l0 i0 s1 l1 i1 s2 l2 i2 s3 l3 i3 x0 x1 x2 x3 s' loc i K Ef B Se Bo Dp Nx Ny Sn G0 IH0 G1 IH1 G2 IH2 G3 IH3 X0 X1 X2 X3 E
      |k t a rest ov vars s s1 l1 i1 x s' loc i K Ga IHa X E
      |k t f a rest ov vars s s' loc i K Sl Ga IHa
      |k t f a b rest ov vars s s1 l1 i1 s2 l2 i2 s' loc i K Dv Ga IHa Gb IHb E
      |k t f a b rest def ov vars s s1 l1 i1 s2 l2 i2 x1 x2 g ret s' loc i K Fa B Ga IHa Gb IHb X1 X2 Ai E]; intros C O.
    - destruct (IHa C O) as (C' & H). split; [exact C'|]. intros Hl. destruct (H Hl) as (T & V). split; [exact T|]. intros w n z W D.
      inversion D; subst; try (destruct K; discriminate); try congruence; try (match goal with Hk : kop _ _ _ = Some _ |- _ => exfalso; destruct K as [-> | ->]; discriminate Hk end). eapply V; eauto. congruence.
    - destruct r0 as ((s1 & l1) & i1). destruct (load_entry _ _ _ _ _ rest _ _ _ _ O K B L E) as (T & Sn & En).
      destruct (remember_ok _ _ _ _ _ _ _ _ R T) as (C' & H); [exact (cache_ok_snd _ _ Sn C)|exact En|]. split; [exact C'|]. intros Hl. destruct (H Hl) as (T' & Ty & V).
      split; [exact (typed_or _ _ _ _ B Ty)|]. intros w n z W D. apply V. inversion D; subst; try (destruct K; discriminate); try congruence; try (match goal with Hk : kop _ _ _ = Some _ |- _ => exfalso; destruct K as [-> | ->]; discriminate Hk end). cbn. auto.
    - destruct r0 as ((s1 & l1) & i1). destruct (scalar_entry _ _ _ _ _ rest _ _ _ _ O K B E) as (T & Sn & En).
      destruct (remember_ok _ _ _ _ _ _ _ _ R T) as (C' & H); [exact (cache_ok_snd _ _ Sn C)|exact En|]. split; [exact C'|]. intros Hl. destruct (H Hl) as (T' & Ty & V).
      split; [exact (typed_or _ _ _ _ B Ty)|]. intros w n z W D. apply V. inversion D; subst; try (destruct K; discriminate); try congruence; try (match goal with Hk : kop _ _ _ = Some _ |- _ => exfalso; destruct K as [-> | ->]; discriminate Hk end). cbn. auto.
    - destruct (IHa C O) as (C' & H). split; [exact C'|]. intros Hl. destruct (H Hl) as (T & V). split; [exact T|]. intros w n z W D.
      inversion D; subst; try discriminate. eapply V; eauto.
    - destruct r0 as ((s1 & l1) & i1). destruct (lit_entry _ _ _ _ rest _ _ _ _ O B E) as (T & Sn & En).
      destruct (remember_ok _ _ _ _ _ _ _ _ R T) as (C' & H); [exact (cache_ok_snd _ _ Sn C)|exact En|]. split; [exact C'|]. intros Hl. destruct (H Hl) as (T' & Ty & V).
      split; [exact (typed_or _ _ _ _ B Ty)|]. intros w n z W D. apply V. inversion D; subst; try discriminate. cbn. auto.
    - (* C's operators *)
      destruct (IHa C) as (C1 & H1); [intros u [=]|]. destruct (IHb C1) as (C2 & H2); [intros u [=]|].
      split; [exact (cache_ok_snd _ _ (emit_as_snd _ _ _ _ _ _ _ _ E) C2)|]. intros Hl. destruct (emit_as_loc _ _ _ _ _ _ _ _ E Hl) as (Hl' & _). apply Forall_app in Hl' as (L1 & L2).
      destruct (H1 L1) as (Ty1 & V1). destruct (H2 L2) as (Ty2 & V2). destruct (body_type_allowed _ _ _ B) as (Ad & Nd).
      split; [apply (typed_or _ _ _ _ B); apply (emit_as_typed tile st d _ _ _ _ _ _ _ _ E Hl (oka_or _ _ _ O B)); intros _ F; cbn in F |- *; congruence|].
      intros w n z W D. inversion D; subst; try discriminate.
      match goal with Da : den vars false a n ?p, Db : den vars false b n ?q |- _ => pose proof (V1 false n p (fun X => ltac:(discriminate X)) Da) as Va; pose proof (V2 false n q (fun X => ltac:(discriminate X)) Db) as Vb;
        pose proof (den_range _ _ _ _ _ Da eq_refl) as Ra end.
      assert (Al : forall ov' i' t', typed ov' i' -> i_type i' = Some t' -> allowed d t').
      { intros ov' i' t' [(N & _)|(u & y0 & w' & U & _ & _ & A & _)] T; congruence. }
      eapply (emit_as_value tile st d _ _ _ _ _ _ _ _ n z E Hl); auto.
      + left. exact Ad.
      + exact (oka_or _ _ _ O B).
      + intros Du. apply (Nd Du).
      + intros v w' Cv N. split; [|intros ->; exfalso; destruct d; cbn in Ad; intuition discriminate].
        eapply (prim_value tile st d k op t def x1 x2 i1 i2 t1 t2); eauto. intros ->. unfold in_range in Ra. cbn in Ra. lia.
    - (* operators with a tensor *)
      destruct (IHa C) as (C1 & H1); [intros u [=]|]. destruct (IHb C1) as (C2 & H2); [intros u [=]|]. destruct (IHt C2) as (C3 & H3); [intros u [=]|].
      split; [exact C3|]. intros Hl. destruct (H3 Hl) as (Ty & V). split.
      { destruct Ty as [Ty|(u & y & w' & U & Y & Sy & A & F)]; [left; exact Ty|right; exists u, y, w'; repeat split; auto]. intros D F'. discriminate (F D F'). }
      intros w n z W D. apply (V false n z); [discriminate|]. inversion D; subst; try (destruct Ko; reflexivity).
      assert (Hz : forall p q, kop k p q = Some z -> zop (pre ++ fn_suffix k)%string (if String.eqb pre "matrix_scalar" then q else p) (if String.eqb pre "matrix_scalar" then p else q) = Some z).
      { intros p q Kz. destruct Pre as [(-> & _)|[(-> & _)|(-> & _)]]; destruct k; try discriminate Kz; exact Kz. }
      match goal with Kz : kop k ?p ?q = Some z |- _ => pose proof (Hz p q Kz) as Zz;
        assert (Dz : smem (pre ++ fn_suffix k)%string (variants "div") = true -> k = KDiv) by (intros Q; destruct Pre as [(-> & _)|[(-> & _)|(-> & _)]]; destruct k; try discriminate Kz; try discriminate Q; reflexivity) end.
      assert (Sw : swapped (pre ++ fn_suffix k)%string = String.eqb pre "matrix_scalar").
      { match goal with Kz : kop k _ _ = Some z |- _ => destruct Pre as [(-> & _)|[(-> & _)|(-> & _)]]; destruct k; try discriminate Kz; reflexivity end. }
      destruct Pre as [(-> & -> & ->)|[(-> & -> & ->)|(-> & -> & ->)]];
        (eapply d_call; [eassumption|eassumption|exact Zz| |left; assumption|discriminate|discriminate]); intros Q; unfold fst_of; rewrite Sw; cbn; auto.
    - (* selections *)
      destruct (body_type_allowed _ _ _ B) as (Ad & Nd). assert (Oa : oka (Some def)) by (intros u [= <-]; exact Ad).
      destruct (IH0 C Oa) as (C0 & H0). destruct (IH1 C0 Oa) as (C1 & H1). destruct (IH2 C1 Oa) as (C2 & H2). destruct (IH3 C2 Oa) as (C3 & H3).
      split; [exact (cache_ok_snd _ _ (emit_as_snd _ _ _ _ _ _ _ _ E) C3)|]. intros Hl. destruct (emit_as_loc _ _ _ _ _ _ _ _ E Hl) as (Hl' & _).
      apply Forall_app in Hl' as (L0 & Hl'). apply Forall_app in Hl' as (L1 & Hl'). apply Forall_app in Hl' as (L2 & L3).
      split; [apply (typed_or _ _ _ _ B); apply (emit_as_typed tile st d _ _ _ _ _ _ _ _ E Hl (oka_or _ _ _ O B)); intros _ F; cbn in F |- *; congruence|].
      intros w n z W D. destruct (call_kind _ K) as (K1 & K2 & K3 & K4). inversion D; subst; try congruence.
      2: { destruct (slices_not f) as (N & _); auto. congruence. }
      2: { match goal with Z : zop f _ _ = Some _ |- _ => destruct (zop_not _ _ _ _ Z) as (N & _) end. congruence. }
      repeat match goal with A : ?x = _, B : ?x = _ |- _ => rewrite A in B; injection B as; subst end.
      eapply (emit_as_value tile st d _ _ _ _ _ _ _ _ n z E Hl); auto.
      + left. exact Ad.
      + exact (oka_or _ _ _ O B).
      + intros Du. apply (Nd Du).
      + intros v w' Cv N. eapply (select_value tile st d _ op x0 x1 x2 x3 i0 i1 i2 i3 n); eauto.
        * apply (proj2 (H0 L0) false); [discriminate|eassumption].
        * apply (proj2 (H1 L1) false); [discriminate|eassumption].
        * intros Q. apply (proj2 (H2 L2) false); [discriminate|auto].
        * intros Q. apply (proj2 (H3 L3) false); [discriminate|auto].
    - (* sums over a tensor *)
      destruct (IHa C) as (C1 & _); [intros u [=]|]. unfold emit in E. cbn in E. injection E as <- <- <-. split; [exact (cache_ok_snd _ _ eq_refl C1)|].
      intros _. split; [left; split; reflexivity|]. intros w n z W D. exfalso. destruct (call_kind _ K) as (K1 & K2 & K3 & K4). inversion D; subst; try congruence.
      + match goal with Z : kop k _ _ = Some _ |- _ => destruct K as [-> | ->]; discriminate Z end.
      + discriminate.
      + discriminate.
      + match goal with Z : zop _ _ _ = Some _ |- _ => destruct (zop_not _ _ _ _ Z) as (_ & N & _) end. congruence.
    - destruct (IHa C O) as (C' & H). split; [exact C'|]. intros Hl. destruct (H Hl) as (T & V). split; [exact T|]. intros w n z W D.
      destruct (call_kind _ K) as (K1 & K2 & K3 & K4). destruct (slices_not f Sl) as (Ns & _). inversion D; subst; try congruence.
      + match goal with Z : kop k _ _ = Some _ |- _ => destruct K as [-> | ->]; discriminate Z end.
      + eapply V; eauto.
      + match goal with Z : zop _ _ _ = Some _ |- _ => destruct (zop_not _ _ _ _ Z) as (_ & _ & N) end. congruence.
    - (* divisions *)
      assert (Ob : oka (Some match d with UINT_8 => FLOAT256 | _ => FLOAT64 end)) by (intros u [= <-]; destruct d; cbn; auto).
      assert (Oa : oka (Some (if contains "scalar" f then FLOAT64 else match d with UINT_8 => FLOAT256 | _ => FLOAT64 end))) by (intros u [= <-]; destruct (contains "scalar" f), d; cbn; auto).
      destruct (IHa C Oa) as (C1 & H1). destruct (IHb C1 Ob) as (C2 & H2).
      assert (Es : snd s' = snd s2 /\ (Holds loc -> Holds l1 /\ Holds l2)).
      { destruct (swapped f); destruct (div_tail_loc _ _ _ _ _ _ _ _ _ E) as (Es & Hs); (split; [exact Es|]); intros Hl; destruct (Hs Hl); auto. }
      split; [exact (cache_ok_snd _ _ (proj1 Es) C2)|]. intros Hl. destruct (proj2 Es Hl) as (L1 & L2). destruct (H1 L1) as (Ty1 & V1). destruct (H2 L2) as (Ty2 & V2).
      assert (N2 : d = UINT_8 -> is64 i2 = false).
      { intros Du. unfold is64. destruct Ty2 as [(-> & _)|(u & y & w' & -> & _ & _ & _ & F)]; [reflexivity|]. destruct u; try reflexivity. specialize (F Du eq_refl). rewrite Du in F. discriminate F. }
      assert (N21 : d = UINT_8 -> is64 i2 && is64 i1 = false) by (intros Du; rewrite (N2 Du); reflexivity).
      assert (N12 : d = UINT_8 -> is64 i1 && is64 i2 = false) by (intros Du; rewrite (N2 Du); apply andb_false_r).
      split. { destruct (swapped f); eapply div_typed; eauto. }
      intros w n z W D. destruct (call_kind _ K) as (K1 & K2 & K3 & K4). inversion D; subst; try congruence.
      + exfalso. apply smem_cases in Dv. cbn in Dv. repeat (destruct Dv as [<-|Dv]; [discriminate|]). contradiction.
      + destruct (slices_not f) as (_ & _ & N & _); auto. congruence.
      + match goal with Z : zop _ _ _ = Some _ |- _ => destruct (zop_div _ _ _ _ Dv Z) as (Pz & ->) end.
        match goal with Da : den vars ?wa a n ?p, Db : den vars ?wb b n ?q |- _ => assert (Va : value i1 n p); [apply (V1 wa n p); auto|assert (Vb : value i2 n q); [apply (V2 wb n q); auto|]] end.
        { intros Wa. match goal with Hw : wa = true -> _ |- _ => destruct (Hw Wa) as (-> & _ & ->) end. auto. }
        { intros Wb. match goal with Hw : wb = true -> _ |- _ => destruct (Hw Wb) as (-> & _) end. auto. }
        assert (Rz : in_range d (fst_of f x y / fst_of f y x)).
        { match goal with Hr : in_range _ _ \/ _ |- _ => destruct Hr as [Hr|(_ & Hm)]; [exact Hr|] end. exfalso. apply smem_cases in Dv. cbn in Dv. repeat (destruct Dv as [<-|Dv]; [discriminate Hm|]). contradiction. }
        match goal with Dk : _ -> div_ok _ _ _ |- _ => specialize (Dk Dv) end.
        unfold fst_of in *. destruct (swapped f); eapply div_value; eauto.
    - (* sums, differences, products *)
      destruct (body_type_allowed _ _ _ B) as (Ad & Nd). assert (Oa : oka (Some def)) by (intros u [= <-]; exact Ad).
      destruct (IHa C Oa) as (C1 & H1). destruct (IHb C1 Oa) as (C2 & H2).
      split; [exact (cache_ok_snd _ _ (emit_as_snd _ _ _ _ _ _ _ _ E) C2)|]. intros Hl. destruct (emit_as_loc _ _ _ _ _ _ _ _ E Hl) as (Hl' & _).
      assert (L12 : Holds l1 /\ Holds l2) by (destruct (swapped f); apply Forall_app in Hl' as (? & ?); auto). destruct L12 as (L1 & L2).
      destruct (H1 L1) as (Ty1 & V1). destruct (H2 L2) as (Ty2 & V2). destruct (arith_between d _ _ _ _ _ B Ai) as (Bt & Nr).
      split; [apply (typed_or _ _ _ _ B); apply (emit_as_typed tile st d _ _ _ _ _ _ _ _ E Hl (oka_or _ _ _ O B)); intros _ F; cbn in F |- *; congruence|].
      intros w n z W D. destruct (call_kind _ K) as (K1 & K2 & K3 & K4). inversion D; subst; try congruence.
      + exfalso. apply smem_cases in Fa. cbn in Fa. repeat (destruct Fa as [<-|Fa]; [discriminate|]). contradiction.
      + destruct (slices_not f) as (_ & _ & _ & N); auto. congruence.
      + match goal with Z : zop _ _ _ = Some _ |- _ => destruct (zop_arith _ _ _ _ Fa Z) as (Nv & Nm & Ez) end.
        match goal with Da : den vars ?wa a n ?p, Db : den vars ?wb b n ?q |- _ => assert (Va : value i1 n p); [apply (V1 wa n p); auto|assert (Vb : value i2 n q); [apply (V2 wb n q); auto|]] end.
        { intros Wa. match goal with Hw : wa = true -> _ |- _ => destruct (Hw Wa) as (_ & Hv & _) end. congruence. }
        { intros Wb. match goal with Hw : wb = true -> _ |- _ => destruct (Hw Wb) as (_ & Hv) end. congruence. }
        assert (Rz : in_range d z \/ (ret = UINT256 /\ Some (or_ ov def) = Some FLOAT256)).
        { match goal with Hr : in_range _ _ \/ _ |- _ => destruct Hr as [Hr|(Hw & Hm)]; [auto|] end. right. destruct (W Hw) as (Du & ->). split; [|reflexivity].
          destruct (Nm Hm) as (M1 & M2). unfold arith_instr in Ai. rewrite M1, M2, Du in Ai. injection Ai as _ <-. reflexivity. }
        eapply (emit_as_value tile st d _ _ _ _ _ _ _ _ n z E Hl); auto.
        * exact (oka_or _ _ _ O B).
        * intros v w' Cv N. unfold fst_of in Ez. assert (Rr : in_range d z \/ ret = UINT256) by (destruct Rz as [?|(? & _)]; auto).
          destruct (swapped f); [exact (arith_value tile st d f def g ret _ _ _ _ _ _ _ _ _ _ Ai Vb Va X2 X1 Ez Rr Cv N)|exact (arith_value tile st d f def g ret _ _ _ _ _ _ _ _ _ _ Ai Va Vb X1 X2 Ez Rr Cv N)].
  Qed.
End Value.
