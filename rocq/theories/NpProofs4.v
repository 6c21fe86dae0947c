(** Proofs for C45: the values of the texts. *)

From Coq Require Import String Ascii List ZArith Bool Lia.
From Verif Require Import Ast Semantics Dict PyGram PyParse PyMean RktModel LibSem NpModel NpSem NpProofs NpProofs2 NpProofs3.
Import ListNotations.
Local Open Scope string_scope.
Local Open Scope list_scope.

(** ** values that correspond *)
Lemma map_inj {A B} (f : A -> B) : (forall a b, f a = f b -> a = b) -> forall l r, map f l = map f r -> l = r.
Proof. intros F l. induction l as [|a l IH]; intros [|b r] E; try discriminate E; [reflexivity|]. injection E as E1 E2. f_equal; auto. Qed.
Lemma vl_inj l r : vl l = vl r -> l = r.
Proof. unfold vl. intros E. injection E as E. revert E. apply map_inj. intros a b X. injection X as ->. reflexivity. Qed.
Lemma vm_inj l r : vm l = vm r -> l = r.
Proof. unfold vm. intros E. injection E as E. revert E. apply map_inj, vl_inj. Qed.
Lemma emb_inj d e : proper d -> proper e -> emb d = emb e -> d = e.
Proof.
  destruct d, e; cbn [proper emb]; intros P Q X; try contradiction; try discriminate X.
  - injection X as ->. reflexivity.
  - injection X as ->. reflexivity.
  - f_equal. apply vl_inj, X.
  - destruct m as [|r m]; [discriminate Q|]. destruct l as [|z l]; discriminate X.
  - destruct m as [|r m]; [discriminate P|]. destruct l as [|z l]; discriminate X.
  - f_equal. apply vm_inj, X.
Qed.
Lemma emb_int d z : proper d -> emb d = VInt z -> d = DZ z.
Proof. intros P X. apply (emb_inj d (DZ z) P Logic.I X). Qed.
Lemma emb_bool d b : proper d -> emb d = VBool b -> d = DB b.
Proof. intros P X. apply (emb_inj d (DB b) P Logic.I X). Qed.
Lemma rows_proper m v : rows m = Some v -> proper v.
Proof. unfold rows. destruct (rectb m) eqn:E; intros X; [injection X as <-; exact E|discriminate X]. Qed.
Lemma rows_of_proper m v : rows_of m = Some v -> proper v.
Proof. destruct m; [apply rows_proper|discriminate]. Qed.
Ltac branch E :=
  repeat match type of E with
  | (if ?b then _ else _) = Some _ => destruct b; try discriminate E
  | match ?b with Some _ => _ | None => _ end = Some _ => destruct b; try discriminate E
  | match ?b with [] => _ | _ :: _ => _ end = Some _ => destruct b; try discriminate E
  end.
Lemma tmean_proper f ds v : tmean f ds = Some v -> proper v.
Proof.
  intros E. destruct ds as [|[a|a|a|a|a] [|[b|b|b|b|b] [|[c|c|c|c|c] [|? ?]]]]; try discriminate E; cbn [tmean] in E; branch E;
    try (injection E as <-; exact Logic.I); try (exact (rows_proper _ _ E)); try (exact (rows_of_proper _ _ E)).
  all: match type of E with option_map _ ?x = _ => destruct x; [injection E as <-; exact Logic.I|discriminate E] end.
Qed.

(** ** what [fits] says *)
Section Inv.
  Variables (W : Z -> Z) (lo hi : Z) (fns : list (string * expr)).
  Hypothesis Wok : forall z, (lo <= z <= hi)%Z -> W z = z.
  Variables (I : interp) (Sel : env -> list expr -> Prop).
  Hypothesis T : tensor_like fns I.
  Notation F := (fits lo hi I Sel).

  Lemma fits_val r e : F r e -> exists d, proper d /\ within lo hi d /\ eval I r e = Some (emb d).
  Proof. destruct e; intros [H _]; exact H. Qed.
  Lemma fits_is r e d : F r e -> proper d -> eval I r e = Some (emb d) -> within lo hi d.
  Proof.
    intros H P E. destruct (fits_val r e H) as [d' [P' [X E']]]. rewrite E' in E. injection E as E. rewrite <- (emb_inj d' d P' P E). exact X.
  Qed.
  Lemma all_forall r l : (fix all (l : list expr) : Prop := match l with [] => True | a :: l => F r a /\ all l end) l -> Forall (F r) l.
  Proof. induction l as [|a l IH]; intros H; constructor; [exact (proj1 H)|exact (IH (proj2 H))]. Qed.

  Lemma fits_call r t f args dv : f <> "matrix_selection_two_args" -> F r (Node KCall t (Atom (PStr f) :: args)) -> proper dv ->
    eval I r (Node KCall t (Atom (PStr f) :: args)) = Some (emb dv) ->
    Forall (F r) args /\ exists ds, Forall2 (fun a d => proper d /\ eval I r a = Some (emb d)) args ds /\ tmean f ds = Some dv /\ within lo hi dv /\ end_fits lo hi f ds.
  Proof.
    intros Nf H P E. assert (Wi := fits_is _ _ _ H P E). destruct H as [_ H]. cbn beta iota in H.
    rewrite (proj2 (String.eqb_neq _ _) Nf) in H. destruct H as [A [ds [v [Pd [M [X Ef]]]]]]. split; [apply all_forall, A|]. exists ds. split.
    - clear - Pd M. revert ds Pd M. induction args as [|a args IH]; intros ds Pd M; cbn [mapO] in M.
      + destruct ds; [constructor|discriminate M].
      + destruct (eval I r a) as [x|] eqn:Ea; [|discriminate M]. destruct (mapO (eval I r) args) as [xs|] eqn:Es; [|discriminate M].
        destruct ds as [|d ds]; [discriminate M|]. cbn [map] in M. injection M as -> ->. inversion Pd; subst. constructor; [auto|apply IH; auto].
    - cbn [eval] in E. rewrite M, (tl_lib _ _ T f ds v X) in E. injection E as E.
      rewrite <- (emb_inj v dv (tmean_proper _ _ _ X) P E). split; [exact X|]. split; [|exact Ef]. rewrite (emb_inj v dv (tmean_proper _ _ _ X) P E). exact Wi.
  Qed.

  Lemma fits_arith r k l t e f : arith_level k = Some l -> F r (Node k t [e; f]) ->
    F r e /\ F r f /\ exists a b c, eval I r e = Some (VInt a) /\ eval I r f = Some (VInt b) /\ eval I r (Node k t [e; f]) = Some (VInt c) /\
      eop W (bin_of k) (EI a) (EI b) = Some (EI c) /\ ((bin_of k = OFloor \/ bin_of k = OMod) -> (0 < b)%Z).
  Proof.
    intros K H. assert (V := fits_val _ _ H). destruct V as [dv [P [Wi E]]].
    assert (A : F r e /\ F r f /\ ((k = KDiv \/ k = KMod) -> forall a b, mapO (eval I r) [e; f] = Some [VInt a; VInt b] -> (0 < b)%Z)).
    { destruct H as [_ H]. destruct k; try discriminate K; cbn beta iota in H.
      1-3: destruct H as [H1 [H2 _]]; split; [exact H1|split; [exact H2|intros [X|X]; discriminate X]].
      all: destruct H as [[H1 [H2 _]] H3]; split; [exact H1|split; [exact H2|intros _; exact H3]]. }
    destruct A as [F1 [F2 Z0]]. split; [exact F1|]. split; [exact F2|].
    assert (E' : match mapO (eval I r) [e; f] with Some vs => op_val I k vs | None => None end = Some (emb dv)) by (destruct k; try discriminate K; exact E).
    cbn [mapO] in Z0, E'. destruct (eval I r e) as [v1|]; [|discriminate E']. destruct (eval I r f) as [v2|]; [|discriminate E'].
    assert (V : exists a b c, v1 = VInt a /\ v2 = VInt b /\ emb dv = VInt c /\ op_val I k [VInt a; VInt b] = Some (VInt c)).
    { destruct k; try discriminate K; cbn [op_val mapO] in E'; (destruct v1 as [a| | | |]; try discriminate E'); (destruct v2 as [b| | | |]; try discriminate E');
        exists a, b; cbn [op_val mapO as_int int2 fold_left] in *; unfold int2 in *; cbn in E' |- *.
      1-3: injection E' as E'; eexists; split; [reflexivity|]; split; [reflexivity|]; split; [symmetry; exact E'|reflexivity].
      1: destruct (i_div I a b) as [c|]; [|discriminate E'].
      2: destruct (i_mod I a b) as [c|]; [|discriminate E'].
      all: injection E' as E'; exists c; split; [reflexivity|]; split; [reflexivity|]; split; [symmetry; exact E'|reflexivity]. }
    destruct V as [a [b [c [-> [-> [V1 V2]]]]]]. exists a, b, c. split; [reflexivity|]. split; [reflexivity|]. split; [rewrite E, V1; reflexivity|].
    pose proof (emb_int dv c P V1) as ->. cbn [within] in Wi.
    assert (B : k = KDiv \/ k = KMod -> (0 < b)%Z) by (intros X; apply (Z0 X a b); reflexivity).
    split.
    - destruct k; try discriminate K; cbn [bin_of eop]; cbn in V2.
      1-3: injection V2 as V2; unfold ei; rewrite V2, Wok; [reflexivity|exact Wi].
      + specialize (B (or_introl eq_refl)). rewrite (tl_div _ _ T a b B) in V2. injection V2 as V2. destruct (b =? 0)%Z eqn:Q; [lia|]. unfold ei. rewrite V2, Wok; auto.
      + specialize (B (or_intror eq_refl)). rewrite (tl_mod _ _ T a b B) in V2. injection V2 as V2. destruct (b =? 0)%Z eqn:Q; [lia|]. unfold ei. rewrite V2, Wok; auto.
    - intros X. apply B. destruct k; try discriminate K; destruct X as [X|X]; try discriminate X; auto.
  Qed.
  Lemma fits_cmp r k t e f : is_cmp k = true -> F r (Node k t [e; f]) ->
    F r e /\ F r f /\ exists a b v, eval I r e = Some (VInt a) /\ eval I r f = Some (VInt b) /\ eval I r (Node k t [e; f]) = Some (VBool v) /\
      ecmp (cmp_of_kind k) (EI a) (EI b) = Some (EB v).
  Proof.
    intros K H. assert (V := fits_val _ _ H). destruct V as [dv [P [Wi E]]].
    assert (A : F r e /\ F r f /\ (k = KEq -> (exists z, eval I r e = Some (VInt z)) /\ (exists z, eval I r f = Some (VInt z)))).
    { destruct H as [_ H]. destruct k; try discriminate K; cbn beta iota in H.
      1: destruct H as [[H1 [H2 _]] H3]; split; [exact H1|split; [exact H2|intros _]]; inversion H3 as [|x l Y1 Y2]; subst; inversion Y2; subst; auto.
      all: destruct H as [H1 [H2 _]]; split; [exact H1|split; [exact H2|intros X; discriminate X]]. }
    destruct A as [F1 [F2 Z0]]. split; [exact F1|]. split; [exact F2|].
    assert (E' : match mapO (eval I r) [e; f] with Some vs => op_val I k vs | None => None end = Some (emb dv)) by (destruct k; try discriminate K; exact E).
    cbn [mapO] in E'. destruct (eval I r e) as [v1|] eqn:E1; [|discriminate E']. destruct (eval I r f) as [v2|] eqn:E2; [|discriminate E'].
    assert (V : exists a b, v1 = VInt a /\ v2 = VInt b).
    { destruct k; try discriminate K; cbn [op_val] in E'; try (unfold int2 in E'; cbn in E'; destruct v1 as [a| | | |]; try discriminate E'; destruct v2 as [b| | | |]; try discriminate E'; eauto).
      destruct (Z0 eq_refl) as [[a Ha] [b Hb]]. injection Ha as ->. injection Hb as ->. eauto. }
    destruct V as [a [b [-> ->]]]. exists a, b. rewrite E.
    destruct k; try discriminate K; cbn in E'; injection E' as E'; eexists; (split; [reflexivity|]; split; [reflexivity|]; split; [rewrite <- E'; reflexivity|reflexivity]).
  Qed.
  Lemma fits_logic r k t e f : k = KAnd \/ k = KOr -> F r (Node k t [e; f]) ->
    F r e /\ F r f /\ exists a b, eval I r e = Some (VBool a) /\ eval I r f = Some (VBool b) /\
      eval I r (Node k t [e; f]) = Some (VBool (match k with KAnd => a && b | _ => a || b end)).
  Proof.
    intros K H. assert (V := fits_val _ _ H). destruct V as [dv [P [Wi E]]].
    assert (A : F r e /\ F r f) by (destruct H as [_ H]; destruct K; subst k; destruct H as [H1 [H2 _]]; auto).
    destruct A as [F1 F2]. split; [exact F1|]. split; [exact F2|].
    assert (E' : match mapO (eval I r) [e; f] with Some vs => op_val I k vs | None => None end = Some (emb dv)) by (destruct K; subst k; exact E).
    cbn [mapO] in E'. destruct (eval I r e) as [v1|] eqn:E1; [|discriminate E']. destruct (eval I r f) as [v2|] eqn:E2; [|discriminate E'].
    destruct K; subst k; cbn [op_val mapO] in E'; (destruct v1 as [|a| | |]; try discriminate E'); (destruct v2 as [|b| | |]; try discriminate E');
      exists a, b; (split; [reflexivity|split; [reflexivity|]]); rewrite E, <- E'; cbn; rewrite ?andb_true_r, ?orb_false_r; reflexivity.
  Qed.
  Lemma fits_not r t e : F r (Node KNot t [e]) ->
    F r e /\ exists a, eval I r e = Some (VBool a) /\ eval I r (Node KNot t [e]) = Some (VBool (negb a)).
  Proof.
    intros H. assert (V := fits_val _ _ H). destruct V as [dv [P [Wi E]]]. assert (F1 : F r e) by (destruct H as [_ H]; exact (proj1 H)).
    split; [exact F1|]. pose proof E as E'. cbn [eval mapO] in E'. destruct (eval I r e) as [v1|] eqn:E1; [|discriminate E'].
    cbn [op_val] in E'. destruct v1 as [|a| | |]; try discriminate E'. exists a. split; [reflexivity|]. rewrite E, <- E'. reflexivity.
  Qed.
End Inv.

(** ** the parts of the body of the selecting function *)
Definition isM {A} (x : arr A) : bool := match x with AM _ => true | _ => false end.
Section Grid.
  Variable prs : list (list (Z * Z)).
  Definition stands {A} (x : arr A) (g : Z * Z -> A) : Prop :=
    match x with AS v => forall pr, In pr (concat prs) -> g pr = v | AV _ => False | AM m => m = map (map g) prs end.
  Hypothesis some : exists pr, In pr (concat prs).
  Lemma rows_to {A B} (f : A -> option B) (g : Z * Z -> A) (h : Z * Z -> B) l :
    (forall pr, In pr l -> f (g pr) = Some (h pr)) -> mapO f (map g l) = Some (map h l).
  Proof.
    induction l as [|a l IH]; intros H; [reflexivity|]. cbn [map mapO]. rewrite (H a) by (left; reflexivity). rewrite IH; [reflexivity|]. intros pr X. apply H. right. exact X.
  Qed.
  Lemma grid_to {A B} (f : A -> option B) (g : Z * Z -> A) (h : Z * Z -> B) ps :
    (forall pr, In pr (concat ps) -> f (g pr) = Some (h pr)) -> mapO (mapO f) (map (map g) ps) = Some (map (map h) ps).
  Proof.
    induction ps as [|a l IH]; intros H; [reflexivity|]. cbn [map mapO]. rewrite (rows_to f g h a), IH; [reflexivity|..]; intros pr X; apply H; cbn; apply in_or_app; auto.
  Qed.
  Lemma rows_zip {A B C} (f : A -> B -> option C) g h k l :
    (forall pr : Z * Z, In pr l -> f (g pr) (h pr) = Some (k pr)) -> stretch f (map g l) (map h l) = Some (map k l).
  Proof.
    intros H. rewrite stretch_same by (rewrite !map_length; reflexivity). unfold zipO. induction l as [|a l IH]; [reflexivity|].
    cbn [map combine mapO fst snd]. rewrite (H a) by (left; reflexivity). rewrite IH; [reflexivity|]. intros pr X. apply H. right. exact X.
  Qed.
  Lemma grid_zip {A B C} (f : A -> B -> option C) g h k ps :
    (forall pr : Z * Z, In pr (concat ps) -> f (g pr) (h pr) = Some (k pr)) -> stretch (stretch f) (map (map g) ps) (map (map h) ps) = Some (map (map k) ps).
  Proof.
    intros H. rewrite stretch_same by (rewrite !map_length; reflexivity). unfold zipO. induction ps as [|a l IH]; [reflexivity|].
    cbn [map combine mapO fst snd]. rewrite (rows_zip f g h k a), IH; [reflexivity|..]; intros pr X; apply H; cbn; apply in_or_app; auto.
  Qed.
  Lemma spread {A B C} (f : A -> B -> option C) x y g h k : stands x g -> stands y h ->
    (forall pr, In pr (concat prs) -> f (g pr) (h pr) = Some (k pr)) ->
    exists z, broadcast f x y = Some z /\ stands z k /\ isM z = isM x || isM y.
  Proof.
    intros X Y H. destruct some as [p0 P0]. destruct x as [a| |m]; [|contradiction X|]; (destruct y as [b| |n]; [|contradiction Y|]); cbn [stands broadcast] in *.
    - exists (AS (k p0)). assert (E : f a b = Some (k p0)) by (rewrite <- (X p0 P0), <- (Y p0 P0); apply H, P0). rewrite E. split; [reflexivity|split; [|reflexivity]].
      intros pr Pr. pose proof (H pr Pr) as Q. rewrite (X pr Pr), (Y pr Pr), E in Q. injection Q as <-. reflexivity.
    - exists (AM (map (map k) prs)). subst n. rewrite (grid_to (f a) h k); [split; [reflexivity|split; reflexivity]|]. intros pr Pr. rewrite <- (X pr Pr). apply H, Pr.
    - exists (AM (map (map k) prs)). subst m. rewrite (grid_to (fun a => f a b) g k); [split; [reflexivity|split; reflexivity]|]. intros pr Pr. rewrite <- (Y pr Pr). apply H, Pr.
    - exists (AM (map (map k) prs)). subst m n. rewrite (grid_zip f g h k); [split; [reflexivity|split; reflexivity]|]. exact H.
  Qed.
  Lemma spread1 {A B} (f : A -> option B) x g k : stands x g -> (forall pr, In pr (concat prs) -> f (g pr) = Some (k pr)) ->
    exists z, emap f x = Some z /\ stands z k /\ isM z = isM x.
  Proof.
    intros X H. destruct some as [p0 P0]. destruct x as [a| |m]; [|contradiction X|]; cbn [stands emap] in *.
    - exists (AS (k p0)). assert (E : f a = Some (k p0)) by (rewrite <- (X p0 P0); apply H, P0). rewrite E. split; [reflexivity|split; [|reflexivity]].
      intros pr Pr. pose proof (H pr Pr) as Q. rewrite (X pr Pr), E in Q. injection Q as <-. reflexivity.
    - exists (AM (map (map k) prs)). subst m. rewrite (grid_to f g k); [split; [reflexivity|split; reflexivity]|]. exact H.
  Qed.
End Grid.

Section Values.
  Variables (W : Z -> Z) (lo hi : Z) (fns : list (string * expr)) (d : dtype).
  Hypothesis Wok : forall z, (lo <= z <= hi)%Z -> W z = z.
  Hypothesis Dint : is_float d = false.

  Lemma arg_plain E p v : npvalue W E p = Some v ->
    match p with PKw k b => option_map (pair (Some k)) (npvalue W E b) | _ => option_map (pair None) (npvalue W E p) end = Some (None, v).
  Proof. intros H. destruct p; try (rewrite H; reflexivity). discriminate H. Qed.
  Lemma call_value E g ps vs : Forall2 (fun p v => npvalue W E p = Some v) ps vs ->
    npvalue W E (PCall (np_fn g) ps) = npcall W g (map (pair None) vs).
  Proof.
    intros F. cbn [npvalue np_fn].
    assert (X : mapO (fun a => match a with PKw k b => option_map (pair (Some k)) (npvalue W E b) | _ => option_map (pair None) (npvalue W E a) end) ps = Some (map (pair None) vs)).
    { induction F as [|p v ps vs H F IH]; [reflexivity|]. cbn [mapO map]. rewrite (arg_plain E p v H). rewrite IH. reflexivity. }
    rewrite X. reflexivity.
  Qed.
  Lemma call_axis E g p v : npvalue W E p = Some v -> npvalue W E (PCall (np_fn g) [p; axis_kw]) = npcall W g [(None, v); axis0].
  Proof. intros H. cbn [npvalue np_fn mapO axis_kw option_map]. rewrite (arg_plain E p v H). reflexivity. Qed.

  Section Part.
    Variables (p q : string) (lm ln : nat) (m n : expr) (pm pn : pexp).
    Hypothesis Npq : p <> q.
    Let vs := dset (dset [] p m) q n.
    Hypothesis Tm : txt fns d vs m (TMatrix TInt) lm pm.
    Hypothesis Tn : txt fns d vs n (TMatrix TInt) ln pn.
    Lemma vs_is : vs = [(p, m); (q, n)].
    Proof. unfold vs. cbn [dset]. rewrite (proj2 (String.eqb_neq q p) (fun X => Npq (eq_sym X))). reflexivity. Qed.
    Lemma get_p : dget vs p = Some m.
    Proof. rewrite vs_is. cbn [dget]. rewrite String.eqb_refl. reflexivity. Qed.
    Lemma get_q : dget vs q = Some n.
    Proof. rewrite vs_is. cbn [dget]. rewrite (proj2 (String.eqb_neq q p) (fun X => Npq (eq_sym X))), String.eqb_refl. reflexivity. Qed.
    Notation AP := (arith_part p q (TMatrix TInt) lm (TMatrix TInt) ln).
    Notation BP := (bool_part p q (TMatrix TInt) lm (TMatrix TInt) ln).
    Lemma arith_ty e t l : AP e t l -> t = TInt \/ t = TMatrix TInt.
    Proof. induction 1; auto. destruct IHarith_part1; subst; auto. Qed.
    Lemma arith_join e t l f u k : AP e t l -> AP f u k -> prim (join_ty t u) = prim t && prim u.
    Proof. intros A B. destruct (arith_ty _ _ _ A), (arith_ty _ _ _ B); subst; reflexivity. Qed.
    Lemma bool_ty e t l : BP e t l -> t = TBool \/ t = TList TBool.
    Proof. induction 1; auto; destruct (prim te && prim tf); auto. Qed.
    Lemma arith_uses e t l : AP e t l -> (exists x, In x (var_names e)) -> prim t = false.
    Proof.
      induction 1 as [t|t|z|k l t e f te lf tf le K A IHA B IHB]; intros [x X]; try reflexivity; [contradiction X|].
      assert (Y : In x (var_names e ++ var_names f)) by (destruct k; try discriminate K; cbn [var_names flat_map] in X; rewrite app_nil_r in X; exact X).
      rewrite (arith_join _ _ _ _ _ _ A B). apply in_app_or in Y. destruct Y as [Y|Y]; [rewrite IHA by eauto; reflexivity|rewrite IHB by eauto; apply andb_false_r].
    Qed.
    Lemma bool_uses e t l : BP e t l -> (exists x, In x (var_names e)) -> prim t = false.
    Proof.
      induction 1 as [b|k t e f le lf K A B L1 L2|k t e f te le tf lf K A B N|t e f te le tf lf A IHA B IHB|t e f te le tf lf A IHA B IHB|t e te le A IHA P L|t e te le A IHA P]; intros [x X].
      - contradiction X.
      - assert (Y : In x (var_names e ++ var_names f)) by (destruct k; try discriminate K; cbn [var_names flat_map] in X; rewrite app_nil_r in X; exact X).
        apply in_app_or in Y. destruct Y as [Y|Y]; [pose proof (arith_uses _ _ _ A ltac:(eauto)) as C|pose proof (arith_uses _ _ _ B ltac:(eauto)) as C]; discriminate C.
      - reflexivity.
      - cbn [var_names flat_map] in X. rewrite app_nil_r in X. apply in_app_or in X. destruct X as [X|X]; [rewrite IHA by eauto; reflexivity|rewrite IHB by eauto; rewrite andb_false_r; reflexivity].
      - cbn [var_names flat_map] in X. rewrite app_nil_r in X. apply in_app_or in X. destruct X as [X|X]; [rewrite IHA by eauto; reflexivity|rewrite IHB by eauto; rewrite andb_false_r; reflexivity].
      - cbn [var_names flat_map] in X. rewrite app_nil_r in X. rewrite IHA in P by eauto. discriminate P.
      - reflexivity.
    Qed.

    (** what the parts have for values, for all pairs of elements *)
    Section Ctx.
    Variables (I : interp) (E : string -> option nval) (M N : list (list Z)).
    Definition elt_of (v : option val) : elt := match v with Some (VInt z) => EI z | Some (VBool b) => EB b | _ => EI 0 end.
    Definition on (e : expr) (pr : Z * Z) : elt := elt_of (eval I (bind2 p q (fst pr) (snd pr)) e).
    Definition prs : list (list (Z * Z)) := map (fun x => combine (fst x) (snd x)) (combine M N).
    Definition ctx : Prop :=
      tensor_like fns I /\ npvalue W E pm = Some (NA (AM (map (map EI) M))) /\ npvalue W E pn = Some (NA (AM (map (map EI) N))) /\
      same_dim M N = true /\ exists pr, In pr (concat prs).
    Definition good_at (e : expr) (t : ty) (P : pexp) : Prop :=
      ctx -> (forall pr, In pr (concat prs) -> fits lo hi I (fun _ _ => False) (bind2 p q (fst pr) (snd pr)) e) ->
      exists R, npvalue W E P = Some (NA R) /\ stands prs R (on e) /\ isM R = negb (prim t).
    Lemma bind_p x y : bind2 p q x y p = Some (VInt x).
    Proof. unfold bind2, upd. destruct (String.eqb q p) eqn:X; [apply String.eqb_eq in X; congruence|]. rewrite String.eqb_refl. reflexivity. Qed.
    Lemma bind_q x y : bind2 p q x y q = Some (VInt y).
    Proof. unfold bind2, upd. rewrite String.eqb_refl. reflexivity. Qed.
    Lemma grid_l : same_dim M N = true -> map (map EI) M = map (map (fun pr => EI (fst pr))) prs.
    Proof.
      intros S. pose proof (fun a b => same_rows M N a b S) as R. apply same_dim_inv in S. destruct S as [_ [_ [L _]]]. unfold prs.
      revert N L R. induction M as [|a M' IH]; intros [|b N'] L R; try discriminate L; [reflexivity|]. cbn [combine map fst snd]. f_equal.
      - specialize (R a b (or_introl eq_refl)). clear - R. revert b R. induction a as [|x a IH]; intros [|y b] R; try discriminate R; [reflexivity|]. cbn [combine map fst]. f_equal. apply IH. injection R as R. exact R.
      - apply IH; [injection L as L; exact L|]. intros a' b' X. apply R. right. exact X.
    Qed.
    Lemma grid_r : same_dim M N = true -> map (map EI) N = map (map (fun pr => EI (snd pr))) prs.
    Proof.
      intros S. pose proof (fun a b => same_rows M N a b S) as R. apply same_dim_inv in S. destruct S as [_ [_ [L _]]]. unfold prs.
      revert N L R. induction M as [|a M' IH]; intros [|b N'] L R; try discriminate L; [reflexivity|]. cbn [combine map fst snd]. f_equal.
      - specialize (R a b (or_introl eq_refl)). clear - R. revert b R. induction a as [|x a IH]; intros [|y b] R; try discriminate R; [reflexivity|]. cbn [combine map snd]. f_equal. apply IH. injection R as R. exact R.
      - apply IH; [injection L as L; exact L|]. intros a' b' X. apply R. right. exact X.
    Qed.
    Lemma grid_ext (g h : Z * Z -> elt) ps : (forall pr, In pr (concat ps) -> g pr = h pr) -> map (map g) ps = map (map h) ps.
    Proof.
      intros H. induction ps as [|a l IH]; [reflexivity|]. cbn [map]. f_equal; [|apply IH; intros pr X; apply H; cbn; apply in_or_app; auto].
      apply map_ext_in. intros pr X. apply H. cbn. apply in_or_app. auto.
    Qed.

    End Ctx.
    Definition good (e : expr) (t : ty) (P : pexp) : Prop := forall I E M N, good_at I E M N e t P.

    Lemma arith_good e t l : AP e t l -> exists P, txt fns d vs e t l P /\ good e t P.
    Proof.
      induction 1 as [t|t|z|k l t e f te lf tf le K A IHA B IHB].
      - exists pm. split; [apply (txt_repl fns d vs p t m); [exact get_p|exact Tm]|]. intros I E M N [_ [Vm [_ [S _]]]] _. exists (AM (map (map EI) M)). split; [exact Vm|split; [|reflexivity]].
        cbn [stands]. rewrite (grid_l M N S). apply grid_ext. intros pr _. unfold on, var. cbn [eval]. rewrite bind_p. reflexivity.
      - exists pn. split; [apply (txt_repl fns d vs q t n); [exact get_q|exact Tn]|]. intros I E M N [_ [_ [Vn [S _]]]] _. exists (AM (map (map EI) N)). split; [exact Vn|split; [|reflexivity]].
        cbn [stands]. rewrite (grid_r M N S). apply grid_ext. intros pr _. unfold on, var. cbn [eval]. rewrite bind_q. reflexivity.
      - exists (num_exp z). split; [apply txt_lit|]. intros I E M N _ _. exists (AS (EI z)). split; [|split; [intros pr _; reflexivity|reflexivity]].
        unfold num_exp. destruct (z <? 0)%Z; [|reflexivity]. cbn [npvalue]. rewrite Z.opp_involutive. reflexivity.
      - destruct IHA as [P1 [T1 G1]]. destruct IHB as [P2 [T2 G2]]. exists (PBin (bin_of k) P1 P2). split; [apply txt_arith with (le := le) (lf := lf); assumption|].
        intros I E M N C Fi. pose proof C as [TL [_ [_ [_ So]]]].
        assert (Q : forall pr, In pr (concat (prs M N)) -> fits lo hi I (fun _ _ => False) (bind2 p q (fst pr) (snd pr)) e /\ fits lo hi I (fun _ _ => False) (bind2 p q (fst pr) (snd pr)) f /\
          eop W (bin_of k) (on I e pr) (on I f pr) = Some (on I (Node k t [e; f]) pr) /\ ((bin_of k = OFloor \/ bin_of k = OMod) -> on I f pr <> EI 0)).
        { intros pr Pr. destruct (fits_arith W lo hi fns Wok I _ TL _ k l t e f K (Fi pr Pr)) as [F1 [F2 [a [b [c [E1 [E2 [E3 [E4 E5]]]]]]]]].
          split; [exact F1|split; [exact F2|]]. unfold on. rewrite E1, E2, E3. cbn [elt_of]. split; [exact E4|]. intros X Y. injection Y as ->. specialize (E5 X). lia. }
        destruct (G1 I E M N C (fun pr Pr => proj1 (Q pr Pr))) as [R1 [V1 [S1 M1]]]. destruct (G2 I E M N C (fun pr Pr => proj1 (proj2 (Q pr Pr)))) as [R2 [V2 [S2 M2]]].
        destruct (spread (prs M N) So (eop W (bin_of k)) R1 R2 (on I e) (on I f) (on I (Node k t [e; f])) S1 S2 (fun pr Pr => proj1 (proj2 (proj2 (Q pr Pr))))) as [R [B1 [B2 B3]]].
        exists R. split; [|split; [exact B2|rewrite B3, M1, M2, (arith_join _ _ _ _ _ _ A B); destruct (prim te), (prim tf); reflexivity]].
        cbn [npvalue]. rewrite V1, V2. destruct So as [p0 P0]. destruct (Q p0 P0) as [_ [_ [_ Z0]]].
        assert (Nz : (bin_of k = OFloor \/ bin_of k = OMod) -> R2 <> AS (EI 0)) by (intros X Y; subst R2; apply (Z0 X); exact (S2 p0 P0)).
        assert (X : nbin W (bin_of k) R1 R2 = option_map NA (broadcast (eop W (bin_of k)) R1 R2)).
        { clear - Nz. destruct (bin_of k); try reflexivity; destruct R1; try reflexivity; (destruct R2 as [[[| |]|]| |]; try reflexivity); exfalso; apply Nz; auto. }
        rewrite X, B1. reflexivity.
    Qed.
    (** the branches are integers *)
    Lemma arith_int e t l : AP e t l -> forall I x y, exists z, eval I (bind2 p q x y) e = option_map VInt z.
    Proof.
      induction 1 as [t|t|z|k l t e f te lf tf le K A IHA B IHB]; intros I x y.
      - exists (Some x). apply bind_p.
      - exists (Some y). apply bind_q.
      - exists (Some z). reflexivity.
      - destruct (IHA I x y) as [a Ha]. destruct (IHB I x y) as [b Hb].
        assert (X : eval I (bind2 p q x y) (Node k t [e; f]) = match mapO (eval I (bind2 p q x y)) [e; f] with Some vs => op_val I k vs | None => None end) by (destruct k; try discriminate K; reflexivity).
        rewrite X. cbn [mapO]. rewrite Ha, Hb. destruct a as [a|]; [|exists None; reflexivity]. destruct b as [b|]; [|exists None; reflexivity]. cbn [option_map].
        destruct k; try discriminate K; cbn; try (eexists (Some _); reflexivity); eexists; reflexivity.
    Qed.

    Lemma bool_on I e t l : BP e t l -> forall pr, fits lo hi I (fun _ _ => False) (bind2 p q (fst pr) (snd pr)) e -> exists b, eval I (bind2 p q (fst pr) (snd pr)) e = Some (VBool b).
    Proof.
      intros A pr Fi. destruct A as [b|k t e f le lf K A B L1 L2|k t e f te le tf lf K A B N0|t e f te le tf lf A B|t e f te le tf lf A B|t e te le A P L|t e te le A P].
      - exists b. reflexivity.
      - destruct (fits_cmp lo hi I _ _ k t e f K Fi) as [_ [_ [a [b [v [_ [_ [X _]]]]]]]]. eauto.
      - destruct (fits_cmp lo hi I _ _ k t e f K Fi) as [_ [_ [a [b [v [_ [_ [X _]]]]]]]]. eauto.
      - destruct (fits_logic lo hi I _ _ KAnd t e f (or_introl eq_refl) Fi) as [_ [_ [a [b [_ [_ X]]]]]]. eauto.
      - destruct (fits_logic lo hi I _ _ KOr t e f (or_intror eq_refl) Fi) as [_ [_ [a [b [_ [_ X]]]]]]. eauto.
      - destruct (fits_not lo hi I _ _ t e Fi) as [_ [a [_ X]]]. eauto.
      - destruct (fits_not lo hi I _ _ t e Fi) as [_ [a [_ X]]]. eauto.
    Qed.
    Lemma const_of {A} M N (R : arr A) g : stands (prs M N) R g -> isM R = false -> exists v, R = AS v.
    Proof. destruct R; intros S X; [eauto|contradiction S|discriminate X]. Qed.
    Lemma bool_good e t l : BP e t l -> exists P, txt fns d vs e t l P /\ good e t P.
    Proof.
      induction 1 as [b|k t e f le lf K A B L1 L2|k t e f te le tf lf K A B N0|t e f te le tf lf A IHA B IHB|t e f te le tf lf A IHA B IHB|t e te le A IHA P L|t e te le A IHA P].
      - exists (PBoolE b). split; [apply txt_blit|]. intros I E M N _ _. exists (AS (EB b)). split; [reflexivity|split; [intros pr _; reflexivity|reflexivity]].
      - destruct (arith_good _ _ _ A) as [P1 [T1 G1]]. destruct (arith_good _ _ _ B) as [P2 [T2 G2]]. exists (PCmp P1 [(cmp_of_kind k, P2)]).
        split; [apply txt_cmp with (le := le) (lf := lf); assumption|]. intros I E M N C Fi. pose proof C as [TL [_ [_ [_ So]]]].
        pose proof (fun pr Pr => fits_cmp lo hi I _ _ k t e f K (Fi pr Pr)) as Q.
        destruct (G1 I E M N C (fun pr Pr => proj1 (Q pr Pr))) as [R1 [V1 [S1 M1]]]. destruct (G2 I E M N C (fun pr Pr => proj1 (proj2 (Q pr Pr)))) as [R2 [V2 [S2 M2]]].
        destruct (spread (prs M N) So (ecmp (cmp_of_kind k)) R1 R2 (on I e) (on I f) (on I (Node k t [e; f])) S1 S2) as [R [B1 [B2 B3]]].
        { intros pr Pr. destruct (Q pr Pr) as [_ [_ [a [b [v [E1 [E2 [E3 E4]]]]]]]]. unfold on. rewrite E1, E2, E3. exact E4. }
        exists R. split; [|split; [exact B2|rewrite B3, M1, M2; reflexivity]]. cbn [npvalue]. rewrite V1, V2, B1. reflexivity.
      - destruct (arith_good _ _ _ A) as [P1 [T1 G1]]. destruct (arith_good _ _ _ B) as [P2 [T2 G2]]. exists (PCall (np_fn (np_cmp k)) [P1; P2]).
        split; [apply txt_cmps with (te := te) (le := le) (tf := tf) (lf := lf); assumption|]. intros I E M N C Fi. pose proof C as [TL [_ [_ [_ So]]]].
        pose proof (fun pr Pr => fits_cmp lo hi I _ _ k t e f K (Fi pr Pr)) as Q.
        destruct (G1 I E M N C (fun pr Pr => proj1 (Q pr Pr))) as [R1 [V1 [S1 M1]]]. destruct (G2 I E M N C (fun pr Pr => proj1 (proj2 (Q pr Pr)))) as [R2 [V2 [S2 M2]]].
        destruct (spread (prs M N) So (ecmp (cmp_of_kind k)) R1 R2 (on I e) (on I f) (on I (Node k t [e; f])) S1 S2) as [R [B1 [B2 B3]]].
        { intros pr Pr. destruct (Q pr Pr) as [_ [_ [a [b [v [E1 [E2 [E3 E4]]]]]]]]. unfold on. rewrite E1, E2, E3. exact E4. }
        exists R. split; [|split; [exact B2|]].
        + rewrite (call_value E (np_cmp k) [P1; P2] [NA R1; NA R2]) by (repeat constructor; assumption).
          assert (U : npcall W (np_cmp k) [(None, NA R1); (None, NA R2)] = option_map NA (broadcast (ecmp (cmp_of_kind k)) R1 R2)) by (destruct k; try discriminate K; reflexivity).
          cbn [map]. rewrite U, B1. reflexivity.
        + rewrite B3, M1, M2. destruct (arith_ty _ _ _ A), (arith_ty _ _ _ B); subst; try reflexivity. exfalso. destruct N0; congruence.
      - destruct IHA as [P1 [T1 G1]]. destruct IHB as [P2 [T2 G2]]. eexists. split; [apply txt_and with (le := le) (lf := lf); eassumption|].
        intros I E M N C Fi. pose proof C as [TL [_ [_ [_ So]]]].
        pose proof (fun pr Pr => fits_logic lo hi I _ _ KAnd t e f (or_introl eq_refl) (Fi pr Pr)) as Q.
        destruct (G1 I E M N C (fun pr Pr => proj1 (Q pr Pr))) as [R1 [V1 [S1 M1]]]. destruct (G2 I E M N C (fun pr Pr => proj1 (proj2 (Q pr Pr)))) as [R2 [V2 [S2 M2]]].
        destruct (spread (prs M N) So (elogic andb) R1 R2 (on I e) (on I f) (on I (Node KAnd t [e; f])) S1 S2) as [R [B1 [B2 B3]]].
        { intros pr Pr. destruct (Q pr Pr) as [_ [_ [a [b [E1 [E2 E3]]]]]]. unfold on. rewrite E1, E2, E3. reflexivity. }
        destruct (prim te && prim tf) eqn:Pp.
        + apply andb_true_iff in Pp. destruct Pp as [Pe Pf]. rewrite Pe in M1. rewrite Pf in M2.
          destruct (const_of M N R1 _ S1 M1) as [v1 ->]. destruct (const_of M N R2 _ S2 M2) as [v2 ->]. destruct So as [p0 P0].
          destruct (Q p0 P0) as [_ [_ [a [b [E1 [E2 E3]]]]]]. pose proof (S1 p0 P0) as Y1. pose proof (S2 p0 P0) as Y2. unfold on in Y1, Y2. rewrite E1 in Y1. rewrite E2 in Y2. cbn in Y1, Y2. subst v1 v2.
          exists R. split; [|split; [exact B2|rewrite B3; reflexivity]]. cbn [npvalue]. rewrite V1. cbn [ntrue etrue]. cbn [broadcast elogic etrue option_map] in B1. injection B1 as <-.
          destruct a; [exact V2|reflexivity].
        + exists R. split; [|split; [exact B2|rewrite B3, M1, M2; destruct (prim te), (prim tf); try reflexivity; discriminate Pp]].
          rewrite (call_value E "logical_and" [P1; P2] [NA R1; NA R2]) by (repeat constructor; assumption). cbn [map].
          change (npcall W "logical_and" [(None, NA R1); (None, NA R2)]) with (option_map NA (broadcast (elogic andb) R1 R2)). rewrite B1. reflexivity.
      - destruct IHA as [P1 [T1 G1]]. destruct IHB as [P2 [T2 G2]]. eexists. split; [apply txt_or with (le := le) (lf := lf); eassumption|].
        intros I E M N C Fi. pose proof C as [TL [_ [_ [_ So]]]].
        pose proof (fun pr Pr => fits_logic lo hi I _ _ KOr t e f (or_intror eq_refl) (Fi pr Pr)) as Q.
        destruct (G1 I E M N C (fun pr Pr => proj1 (Q pr Pr))) as [R1 [V1 [S1 M1]]]. destruct (G2 I E M N C (fun pr Pr => proj1 (proj2 (Q pr Pr)))) as [R2 [V2 [S2 M2]]].
        destruct (spread (prs M N) So (elogic orb) R1 R2 (on I e) (on I f) (on I (Node KOr t [e; f])) S1 S2) as [R [B1 [B2 B3]]].
        { intros pr Pr. destruct (Q pr Pr) as [_ [_ [a [b [E1 [E2 E3]]]]]]. unfold on. rewrite E1, E2, E3. reflexivity. }
        destruct (prim te && prim tf) eqn:Pp.
        + apply andb_true_iff in Pp. destruct Pp as [Pe Pf]. rewrite Pe in M1. rewrite Pf in M2.
          destruct (const_of M N R1 _ S1 M1) as [v1 ->]. destruct (const_of M N R2 _ S2 M2) as [v2 ->]. destruct So as [p0 P0].
          destruct (Q p0 P0) as [_ [_ [a [b [E1 [E2 E3]]]]]]. pose proof (S1 p0 P0) as Y1. pose proof (S2 p0 P0) as Y2. unfold on in Y1, Y2. rewrite E1 in Y1. rewrite E2 in Y2. cbn in Y1, Y2. subst v1 v2.
          exists R. split; [|split; [exact B2|rewrite B3; reflexivity]]. cbn [npvalue]. rewrite V1. cbn [ntrue etrue]. cbn [broadcast elogic etrue option_map] in B1. injection B1 as <-.
          destruct a; [reflexivity|exact V2].
        + exists R. split; [|split; [exact B2|rewrite B3, M1, M2; destruct (prim te), (prim tf); try reflexivity; discriminate Pp]].
          rewrite (call_value E "logical_or" [P1; P2] [NA R1; NA R2]) by (repeat constructor; assumption). cbn [map].
          change (npcall W "logical_or" [(None, NA R1); (None, NA R2)]) with (option_map NA (broadcast (elogic orb) R1 R2)). rewrite B1. reflexivity.
      - destruct IHA as [P1 [T1 G1]]. exists (PNot P1). split; [apply txt_not with (te := te) (le := le); assumption|].
        intros I E M N C Fi. pose proof C as [TL [_ [_ [_ So]]]]. pose proof (fun pr Pr => fits_not lo hi I _ _ t e (Fi pr Pr)) as Q.
        destruct (G1 I E M N C (fun pr Pr => proj1 (Q pr Pr))) as [R1 [V1 [S1 M1]]]. rewrite P in M1. destruct (const_of M N R1 _ S1 M1) as [v1 ->]. cbn [stands] in S1.
        exists (AS (EB (negb (etrue v1)))). split; [|split; [|reflexivity]].
        + cbn [npvalue]. rewrite V1. reflexivity.
        + intros pr Pr. destruct (Q pr Pr) as [_ [a [E1 E2]]]. specialize (S1 pr Pr). unfold on in *. rewrite E1 in S1. rewrite E2. cbn in S1. subst v1. reflexivity.
      - destruct IHA as [P1 [T1 G1]]. exists (PCall (np_fn "logical_not") [P1]). split; [apply txt_nots with (te := te) (le := le); assumption|].
        intros I E M N C Fi. pose proof C as [TL [_ [_ [_ So]]]]. pose proof (fun pr Pr => fits_not lo hi I _ _ t e (Fi pr Pr)) as Q.
        destruct (G1 I E M N C (fun pr Pr => proj1 (Q pr Pr))) as [R1 [V1 [S1 M1]]].
        destruct (spread1 (prs M N) So (fun e => Some (EB (negb (etrue e)))) R1 (on I e) (on I (Node KNot t [e])) S1) as [R [B1 [B2 B3]]].
        { intros pr Pr. destruct (Q pr Pr) as [_ [a [E1 E2]]]. unfold on. rewrite E1, E2. reflexivity. }
        exists R. split; [|split; [exact B2|rewrite B3, M1, P; reflexivity]].
        rewrite (call_value E "logical_not" [P1] [NA R1]) by (repeat constructor; assumption). cbn [map].
        change (npcall W "logical_not" [(None, NA R1)]) with (option_map NA (emap (fun e => Some (EB (negb (etrue e)))) R1)). rewrite B1. reflexivity.
    Qed.
  End Part.
End Values.
