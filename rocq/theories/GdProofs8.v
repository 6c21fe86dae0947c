(** What a summary that suits stands for in each lane is an element of its value. *)

From Coq Require Import String Ascii List ZArith Bool Lia QArith Qround.
From Verif Require Import Ast Dict Semantics SmtPrint UtilProofs IrProofs LibSem RktModel NpModel NpSem NpProofs2 NpProofs4 NpProofs5 GdModel GdSem GdProofs1 GdProofs2 GdProofs3 GdProofs4 GdProofs5 GdProofs6.
Import ListNotations.
Local Open Scope nat_scope.
Local Open Scope string_scope.
Local Open Scope list_scope.

(** ** elements *)
Lemma mapO_nth {A B} (f : A -> option B) l : forall res c z, mapO f l = Some res -> nth_error res c = Some z -> exists a, nth_error l c = Some a /\ f a = Some z.
Proof.
  induction l as [|a l IH]; intros res c z E N; cbn [mapO] in E; [injection E as <-; destruct c; discriminate N|].
  destruct (f a) as [b|] eqn:F; [|discriminate]. destruct (mapO f l) as [bs|]; [|discriminate]. injection E as <-. destruct c as [|c]; cbn in N |- *.
  - injection N as <-. eauto.
  - eapply IH; eauto.
Qed.
Lemma combine_nth' {A B} (l : list A) : forall (r : list B) c p, nth_error (combine l r) c = Some p -> nth_error l c = Some (fst p) /\ nth_error r c = Some (snd p).
Proof.
  induction l as [|a l IH]; intros [|b r] c p E; try (destruct c; discriminate E). destruct c as [|c]; cbn in E |- *; [injection E as <-; auto|]. apply IH, E.
Qed.
Lemma zipO_nth {A B C} (f : A -> B -> option C) l r res c z : zipO f l r = Some res -> nth_error res c = Some z ->
  exists a b, nth_error l c = Some a /\ nth_error r c = Some b /\ f a b = Some z.
Proof.
  unfold zipO. intros E N. destruct (mapO_nth _ _ _ _ _ E N) as ((a & b) & P & F). apply combine_nth' in P as (P1 & P2). eauto.
Qed.
Lemma elem_within lo hi v c r z : within lo hi v -> elem v c r = Some z -> (lo <= z <= hi)%Z.
Proof.
  destruct v as [y|y|l|m|l]; cbn; intros W E; try discriminate E.
  - injection E as <-. exact W.
  - apply nth_error_In in E. exact (proj1 (Forall_forall _ _) W _ E).
  - destruct (nth_error m r) as [row|] eqn:R; [|discriminate]. apply nth_error_In in R, E. pose proof (proj1 (Forall_forall _ _) W _ R) as W'. exact (proj1 (Forall_forall _ _) W' _ E).
Qed.

Lemma elementwise_names f : elementwise_fn f = true -> In f (map fst vec_elemwise ++ map fst mat_elemwise ++ map fst vec_scalar ++ map fst mat_scalar).
Proof.
  assert (H : forall (T : list (string * (Z -> Z -> option Z))), dmem T f = true -> In f (map fst T)).
  { intros T. unfold dmem. induction T as [|(y & g) T IH]; cbn; [discriminate|]. destruct (String.eqb_spec f y); auto. }
  unfold elementwise_fn. rewrite !in_app_iff, !orb_true_iff. intros [[[X|X]|X]|X]; auto.
Qed.

Lemma tmean_elem f x y v c r z : elementwise_fn f = true -> tmean f [x; y] = Some v -> elem v c r = Some z ->
  exists a b, elem x c r = Some a /\ elem y c r = Some b /\ zop f a b = Some z.
Proof.
  intros F E N. apply elementwise_names in F.
  destruct x as [a|a|l|m|l], y as [b|b|l'|m'|l']; cbn [tmean] in E; try discriminate E.
  - (* scalar, vector *)
    destruct (dget vec_scalar f) as [g|] eqn:G; [|discriminate]. destruct (mapO (g a) l') as [res|] eqn:M; [|discriminate]. injection E as <-. cbn in N.
    destruct (mapO_nth _ _ _ _ _ M N) as (b & Nb & Gb). exists a, b. split; [reflexivity|]. split; [exact Nb|]. rewrite <- Gb. clear - F G.
    cbn in F. repeat (destruct F as [<-|F]; [try discriminate G; injection G as <-; try reflexivity|]); try contradiction.
    all: try (unfold zop, tadd; cbn; f_equal; lia). all: unfold zop, tmul; cbn; f_equal; lia.
  - destruct (dget mat_scalar f) as [g|] eqn:G; [|discriminate]. destruct (mapO (mapO (g a)) m') as [res|] eqn:M; [|discriminate]. cbn in E. unfold rows in E. destruct (rectb res); [|discriminate]. injection E as <-. cbn in N.
    destruct (nth_error res r) as [row|] eqn:R; [|discriminate]. destruct (mapO_nth _ _ _ _ _ M R) as (row' & R' & M').
    destruct (mapO_nth _ _ _ _ _ M' N) as (b & Nb & Gb). exists a, b. split; [reflexivity|]. split; [cbn; rewrite R'; exact Nb|]. rewrite <- Gb. clear - F G.
    cbn in F. repeat (destruct F as [<-|F]; [try discriminate G; injection G as <-; try reflexivity|]); try contradiction.
    all: try (unfold zop, tadd; cbn; f_equal; lia). all: unfold zop, tmul; cbn; f_equal; lia.
  - exfalso. cbn in F. repeat (destruct F as [<-|F]; [discriminate E|]). contradiction.
  - destruct (dget vec_elemwise f) as [g|] eqn:G; [|discriminate]. destruct (Nat.eqb _ _); [|discriminate]. destruct (zipO g l l') as [res|] eqn:M; [|discriminate]. injection E as <-. cbn in N.
    destruct (zipO_nth _ _ _ _ _ _ M N) as (a & b & Na & Nb & Gb). exists a, b. split; [exact Na|]. split; [exact Nb|]. rewrite <- Gb. clear - F G.
    cbn in F. repeat (destruct F as [<-|F]; [try discriminate G; injection G as <-; reflexivity|]). contradiction.
  - exfalso. destruct (rectb m); [|discriminate E]. cbn in F. repeat (destruct F as [<-|F]; [discriminate E|]). contradiction.
  - exfalso. cbn in F. repeat (destruct F as [<-|F]; [discriminate E|]). contradiction.
  - destruct (dget mat_elemwise f) as [g|] eqn:G; [|discriminate]. destruct (same_dim m m'); [|discriminate]. destruct (zipO (zipO g) m m') as [res|] eqn:M; [|discriminate].
    cbn in E. unfold rows in E. destruct (rectb res); [|discriminate]. injection E as <-. cbn in N.
    destruct (nth_error res r) as [row|] eqn:R; [|discriminate]. destruct (zipO_nth _ _ _ _ _ _ M R) as (ra & rb & Ra & Rb & M').
    destruct (zipO_nth _ _ _ _ _ _ M' N) as (a & b & Na & Nb & Gb). exists a, b. cbn. rewrite Ra, Rb. split; [exact Na|]. split; [exact Nb|]. rewrite <- Gb. clear - F G.
    cbn in F. repeat (destruct F as [<-|F]; [try discriminate G; injection G as <-; reflexivity|]). contradiction.
Qed.

Lemma divisions_elem d f x y c r a b : elementwise_fn f = true -> divisions d f x y -> elem x c r = Some a -> elem y c r = Some b ->
  smem f (variants "div") = true -> div_ok d (fst_of f a b) (fst_of f b a).
Proof.
  intros F D A B V. specialize (D c r a b A B). apply elementwise_names in F. cbn in F.
  repeat (destruct F as [<-|F]; [try discriminate V; exact D|]). contradiction.
Qed.
Lemma wide_first d f : fst (wide_operands d f) = true -> d = UINT_8 /\ smem f (variants "div") = true /\ contains "scalar" f = false.
Proof.
  unfold wide_operands. destruct d; try discriminate. destruct (smem f ["vec_elemwise_div"; "matrix_elemwise_div"]) eqn:E.
  - intros _. apply smem_cases in E. cbn in E. destruct E as [<-|[<-|[]]]; repeat split; reflexivity.
  - destruct (smem f ["vec_scalar_div"; "matrix_scalar_div"; "scalar_vec_div"; "scalar_matrix_div"]); discriminate.
Qed.
Lemma wide_second d f : snd (wide_operands d f) = true -> d = UINT_8 /\ smem f (variants "div") = true.
Proof.
  unfold wide_operands. destruct d; try discriminate. destruct (smem f ["vec_elemwise_div"; "matrix_elemwise_div"]) eqn:E.
  - intros _. apply smem_cases in E. cbn in E. destruct E as [<-|[<-|[]]]; repeat split; reflexivity.
  - destruct (smem f ["vec_scalar_div"; "matrix_scalar_div"; "scalar_vec_div"; "scalar_matrix_div"]) eqn:G; [|discriminate].
    intros _. apply smem_cases in G. cbn in G. destruct G as [<-|[<-|[<-|[<-|[]]]]]; repeat split; reflexivity.
Qed.

Section Stands.
  Variables (fns : list (string * expr)) (d : dtype) (I : interp) (r : env) (o j : nat).
  Hypothesis TL : tensor_like fns I.
  Notation den := (den fns d r o j).

  (** substitution does not matter where its variables do not occur *)
  Lemma den_vars vars w e k z : den vars w e k z -> vars = [] -> forall vars', (forall x, dget vars' x <> None -> mentions x e = false) -> den vars' w e k z.
  Proof.
    assert (Sub : forall kd t args x a, kd <> KVar -> kd <> KNonTerm -> In a args -> mentions x (Node kd t args) = false -> mentions x a = false).
    { intros kd t args x a N1 N2 A M. destruct (mentions x a) eqn:E; [|reflexivity]. rewrite (mentions_child kd t args x a N1 N2 A E) in M. discriminate M. }
    induction 1; intros V vars' Mv; subst.
    - discriminate.
    - apply d_var; auto. destruct (dget vars' x) eqn:G; [|reflexivity]. specialize (Mv x). rewrite G in Mv. cbn in Mv. rewrite String.eqb_refl in Mv. discriminate (Mv ltac:(discriminate)).
    - apply d_ite. apply IHden; auto. intros x X. eapply (Sub KIte t [c; a; b]); try discriminate; [|exact (Mv x X)]. cbn; auto.
    - apply d_lit; auto.
    - assert (N : kd <> KVar /\ kd <> KNonTerm) by (split; intros ->; discriminate). eapply d_op; eauto; [apply IHden1|apply IHden2]; auto; intros x' X; (eapply (Sub kd t [a; b]); [apply N|apply N| |exact (Mv x' X)]); cbn; auto.
    - eapply d_select; eauto.
    - apply d_slice; auto. apply IHden; auto. intros x X. eapply (Sub KCall t (Atom (PStr f) :: a :: rest)); try discriminate; [|exact (Mv x X)]. cbn; auto.
    - eapply d_call; eauto; [apply IHden1|apply IHden2]; auto; intros x' X; (eapply (Sub KCall t (Atom (PStr f) :: a :: b :: rest)); try discriminate; [|exact (Mv x' X)]); cbn; auto.
  Qed.

  (** operators on integers *)
  Lemma op_int rr kd t a b v : (kd = KAdd \/ kd = KSub \/ kd = KMul \/ kd = KDiv) -> eval I rr (Node kd t [a; b]) = Some v ->
    (forall x y, mapO (eval I rr) [a; b] = Some [VInt x; VInt y] -> kd = KDiv -> (0 < y)%Z) ->
    exists x y z, eval I rr a = Some (VInt x) /\ eval I rr b = Some (VInt y) /\ v = VInt z /\ kop kd x y = Some z.
  Proof.
    intros K E P. assert (E' : match mapO (eval I rr) [a; b] with Some vs => op_val I kd vs | None => None end = Some v) by (destruct K as [-> |[-> |[-> | ->]]]; exact E).
    destruct (mapO (eval I rr) [a; b]) as [vs|] eqn:M; [|discriminate]. cbn [mapO] in M. destruct (eval I rr a) as [va|]; [|discriminate]. destruct (eval I rr b) as [vb|]; [|discriminate]. injection M as <-.
    destruct va as [x| | | |]; try (destruct K as [-> |[-> |[-> | ->]]]; discriminate E'). destruct vb as [y| | | |]; try (destruct K as [-> |[-> |[-> | ->]]]; discriminate E').
    exists x, y. destruct K as [-> |[-> |[-> | ->]]]; cbn in E'; try (injection E' as <-; eexists; repeat split; reflexivity).
    specialize (P x y eq_refl eq_refl). rewrite (tl_div _ _ TL _ _ P) in E'. injection E' as <-. exists (x / y)%Z. repeat split. unfold kop, pdiv. destruct (Z.ltb_spec 0 y); [reflexivity|lia].
  Qed.

  Section Body.
    Variables (p q : string) (ma mb : expr) (x y : Z) (k : nat).
    Let vars := dset (dset [] p ma) q mb.
    Hypothesis Pa : den vars false ma k x.
    Hypothesis Pb : den vars false mb k y.
    Notation inner := (suits d I false (fun _ _ => False) false (bind2 p q x y)).

    Lemma inner_val e z : inner e -> eval I (bind2 p q x y) e = Some (VInt z) -> in_range d z.
    Proof.
      intros S E. assert (H : exists v, proper v /\ within (least d) (most d) v /\ eval I (bind2 p q x y) e = Some (emb v)) by (destruct e; apply S).
      destruct H as (v & P & W & E'). rewrite E in E'. injection E' as E'. symmetry in E'. apply (emb_int _ _ P) in E' as ->. exact W.
    Qed.
    Lemma inner_den : forall e z, inner e -> eval I (bind2 p q x y) e = Some (VInt z) -> den vars false e k z.
    Proof.
      fix IH 1. intros [a|kd t args] z S E; [destruct (proj2 S)|]. pose proof (inner_val _ _ S E) as R. destruct S as (_ & S).
      assert (Op : (kd = KAdd \/ kd = KSub \/ kd = KMul \/ kd = KDiv) -> (match args with [a; b] => inner a /\ inner b | _ => False end) ->
        (forall x0 y0, mapO (eval I (bind2 p q x y)) args = Some [VInt x0; VInt y0] -> kd = KDiv -> (0 < y0)%Z /\ div_ok d x0 y0) -> den vars false (Node kd t args) k z).
      { intros K Sa Dv. destruct args as [|a [|b [|? ?]]]; try contradiction Sa. destruct Sa as (Sa & Sb).
        destruct (op_int _ _ _ _ _ _ K E) as (xa & xb & zz & Ea & Eb & [= <-] & Kz). { intros u v M D. apply (Dv u v M D). }
        eapply d_op; [exact (IH a xa Sa Ea)|exact (IH b xb Sb Eb)|exact Kz|exact R|]. intros D. apply (Dv xa xb); [|exact D]. cbn [mapO]. rewrite Ea, Eb. reflexivity. }
      destruct kd; try contradiction S.
      - (* variables *)
        destruct args as [|[[v| | |]|] [|? ?]]; try discriminate E. cbn [eval] in E. unfold bind2, upd in E.
        destruct (String.eqb_spec q v) as [Eq|Nq].
        + injection E as <-. apply d_sub with (a := mb); [|exact Pb]. subst v. unfold vars. rewrite dget_dset, String.eqb_refl. reflexivity.
        + destruct (String.eqb_spec p v) as [Ep|Np]; [|discriminate E]. injection E as <-. apply d_sub with (a := ma); [|exact Pa]. subst v. unfold vars.
          rewrite !dget_dset, String.eqb_refl. destruct (String.eqb_spec p q) as [Epq|_]; [congruence|]. reflexivity.
      - destruct args as [|[a|] [|? ?]]; try discriminate E. cbn [eval] in E. destruct t; try discriminate E; destruct a; try discriminate E. cbn in E. injection E as <-. apply d_lit, R.
      - apply Op; auto. discriminate.
      - apply Op; auto. discriminate.
      - apply Op; auto. discriminate.
      - apply Op; auto; [apply S|]. intros u v M _. apply (proj2 S), M.
      - destruct args as [|c [|a [|b [|? ?]]]]; try contradiction S. destruct S as (Sc & Sa). apply d_ite. apply (IH a z Sa). cbn [eval] in E. rewrite Sc in E. exact E.
      - destruct S as ([=] & _).
    Qed.
  End Body.

  Notation whole := (suits d I true (select_suits fns d I)).
  Lemma whole_range w e v z c : whole w r e -> eval I r e = Some (emb v) -> proper v -> elem v c j = Some z -> in_range d z \/ (w = true /\ product e = true).
  Proof.
    intros S E P N. assert (H : exists v, proper v /\ (if w && product e then True else within (least d) (most d) v) /\ eval I r e = Some (emb v)) by (destruct e; apply S).
    destruct H as (v' & P' & W & E'). rewrite E in E'. injection E' as E'. apply (emb_inj _ _ P P') in E' as <-. destruct w, (product e); auto; left; exact (elem_within _ _ _ _ _ _ W N).
  Qed.
  Lemma whole_den : forall e w v k z, whole w r e -> eval I r e = Some (emb v) -> proper v -> elem v (o + k) j = Some z -> den [] w e k z.
  Proof.
    fix IH 1. intros [a|kd t args] w v k z S E P N; [destruct (proj2 S)|]. pose proof (whole_range _ _ _ _ _ S E P N) as R. destruct S as (_ & S).
    assert (R' : kd <> KCall -> in_range d z) by (intros K; destruct R as [R|(_ & R)]; [exact R|destruct kd; try discriminate R; contradiction K; reflexivity]).
    assert (Op : (kd = KAdd \/ kd = KSub \/ kd = KMul \/ kd = KDiv) -> (match args with [a; b] => whole false r a /\ whole false r b | _ => False end) ->
      (forall x0 y0, mapO (eval I r) args = Some [VInt x0; VInt y0] -> kd = KDiv -> (0 < y0)%Z /\ div_ok d x0 y0) -> den [] w (Node kd t args) k z).
    { intros K Sa Dv. destruct args as [|a [|b [|? ?]]]; try contradiction Sa. destruct Sa as (Sa & Sb).
      destruct (op_int _ _ _ _ _ _ K E) as (xa & xb & zz & Ea & Eb & Ev & Kz). { intros u v' M D. apply (Dv u v' M D). }
      apply (emb_int _ _ P) in Ev as ->. injection N as <-.
      eapply d_op; [exact (IH a false (DZ xa) k xa Sa Ea Logic.I eq_refl)|exact (IH b false (DZ xb) k xb Sb Eb Logic.I eq_refl)|exact Kz|apply R'; destruct K as [-> |[-> |[-> | ->]]]; discriminate|].
      intros D. apply (Dv xa xb); [|exact D]. cbn [mapO]. rewrite Ea, Eb. reflexivity. }
    destruct kd; try contradiction S.
    - destruct args as [|[[x| | |]|] [|? ?]]; try discriminate E. apply d_var; [reflexivity| |apply R'; discriminate]. exists v. split; [exact E|]. auto.
    - destruct args as [|[a|] [|? ?]]; try discriminate E. cbn [eval] in E. destruct v as [y|y|l|m|l]; cbn in P, N; try discriminate N; try contradiction P; destruct t, a; try discriminate E.
      cbn in E, N. injection E as ->. injection N as ->. apply d_lit, R'. discriminate.
    - apply Op; auto. discriminate.
    - apply Op; auto. discriminate.
    - apply Op; auto. discriminate.
    - apply Op; auto; [apply S|]. intros u v' M _. apply (proj2 S), M.
    - destruct args as [|c [|a [|b [|? ?]]]]; try contradiction S. destruct S as (Sc & Sa). apply d_ite. apply (IH a w v k z Sa); auto. cbn [eval] in E. rewrite Sc in E. exact E.
    - destruct S as (_ & S). destruct args as [|[[f| | |]|] rest]; try contradiction S.
      destruct (String.eqb_spec f "matrix_selection_two_args") as [->|_].
      + (* selections *)
        destruct rest as [|m [|n rest]]; try contradiction S. destruct S as (Sm & Sn & Sl). unfold select_suits in Sl.
        destruct rest as [|s [|? ?]]; try contradiction Sl.
        destruct (chosen fns) as [((h & (p & q)) & ((c & a) & b))|] eqn:Ch; [|contradiction Sl].
        destruct c as [|kc tc [|c0 [|c1 [|? ?]]]]; try contradiction Sl.
        destruct Sl as (Cm & Fr & Int & M & N' & Em & En & Es & Sd & Hp).
        destruct (same_dim_inv M N' Sd) as (Rm & Rn & Ln & _).
        destruct (chosen_inv _ _ _ _ _ _ _ Ch) as (sl & u & vx & vy & Y1 & Y2 & Y3 & Y4 & Y5).
        set (g := fun x y => match eval I (bind2 p q x y) (Node KIte TInt [Node kc tc [c0; c1]; a; b]) with Some (VInt z) => Some z | _ => None end).
        assert (Hg : forall x y, i_call I h [VInt x; VInt y] = option_map VInt (g x y)).
        { intros x y. rewrite (tl_fun _ _ TL _ _ _ _ _ _ Ch x y). unfold g. specialize (Int x y).
          destruct (eval I (bind2 p q x y) _) as [v'|]; [|reflexivity]. destruct (Int _ eq_refl) as (z' & ->). reflexivity. }
        cbn [eval mapO] in E. rewrite Em, En, Es in E. rewrite (tl_sel _ _ TL h g M N' Hg Sd) in E.
        destruct (zipO (zipO g) M N') as [res|] eqn:Er; [|discriminate E]. cbn [option_map] in E. injection E as E.
        assert (Rr : elem (DM res) (o + k) j = Some z).
        { destruct v as [y|y|l|m'|l]; try discriminate E; cbn [proper emb] in *; try contradiction.
          - assert (L0 := mapO_len _ _ _ Er). rewrite combine_length, <- Ln, Nat.min_id in L0. destruct res as [|r0 res]; [destruct M; [discriminate Rm|discriminate L0]|]. destruct l; discriminate E.
          - rewrite (vm_inj _ _ E). exact N. }
        cbn in Rr. destruct (nth_error res j) as [row|] eqn:Rj; [|discriminate Rr]. destruct (zipO_nth _ _ _ _ _ _ Er Rj) as (ra & rb & Ra & Rb & Mr).
        destruct (zipO_nth _ _ _ _ _ _ Mr Rr) as (x & y & Nx & Ny & G).
        assert (Pr : In (x, y) (combine (concat M) (concat N'))).
        { apply (zip_pairs M N' (x, y) Sd). apply in_concat. exists (combine ra rb). split.
          - apply in_map_iff. exists (ra, rb). split; [reflexivity|]. clear - Ra Rb. revert j N' Ra Rb. induction M as [|m M IH]; intros [|j] [|n N'] Ra Rb; try discriminate; cbn in *; [injection Ra as <-; injection Rb as <-; auto|right; eauto].
          - clear - Nx Ny. revert rb Nx Ny. generalize (o + k). induction ra as [|m M IH]; intros [|c] [|n N'] Ra Rb; try discriminate; cbn in *; [injection Ra as <-; injection Rb as <-; auto|right; eauto]. }
        destruct (Hp x y Pr) as (I0 & I1 & Ic & Ia & Ib). inversion Ic as [|? ? (z0 & E0) Ic']; subst. inversion Ic' as [|? ? (z1 & E1) _]; subst.
        assert (Fm : forall e, In e [m; n] -> forall x, dget (dset (dset [] p m) q n) x <> None -> mentions x e = false).
        { intros e He x' X. rewrite Forall_forall in Fr. destruct (Fr e He) as (F1 & F2). rewrite !dget_dset in X. destruct (String.eqb_spec x' q) as [Q|_]; [rewrite Q; exact F2|]. destruct (String.eqb_spec x' p) as [Q|_]; [rewrite Q; exact F1|]. contradiction X. reflexivity. }
        assert (Pa : den (dset (dset [] p m) q n) false m k x).
        { eapply den_vars; [|reflexivity|apply Fm; cbn; auto]. apply (IH m false (DM M)); [exact Sm|exact Em|exact Rm|]. cbn. rewrite Ra. exact Nx. }
        assert (Pb : den (dset (dset [] p m) q n) false n k y).
        { eapply den_vars; [|reflexivity|apply Fm; cbn; auto]. apply (IH n false (DM N')); [exact Sn|exact En|exact Rn|]. cbn. rewrite Rb. exact Ny. }
        assert (Ec : eval I (bind2 p q x y) (Node kc tc [c0; c1]) = Some (VBool (zcmp kc z0 z1))).
        { destruct kc; try discriminate Cm; cbn [eval mapO]; rewrite E0, E1; reflexivity. }
        assert (Ei : eval I (bind2 p q x y) (if zcmp kc z0 z1 then a else b) = Some (VInt z)).
        { unfold g in G. cbn [eval] in G, Ec. change (eval I (bind2 p q x y) (Node KIte TInt [Node kc tc [c0; c1]; a; b])) with
            (match eval I (bind2 p q x y) (Node kc tc [c0; c1]) with Some (VBool true) => eval I (bind2 p q x y) a | Some (VBool false) => eval I (bind2 p q x y) b | _ => None end) in G.
          fold (eval I (bind2 p q x y) (Node kc tc [c0; c1])) in G, Ec. rewrite Ec in G. destruct (zcmp kc z0 z1); [destruct (eval I (bind2 p q x y) a) as [[]|]|destruct (eval I (bind2 p q x y) b) as [[]|]]; try discriminate G; injection G as ->; reflexivity. }
        eapply d_select; [reflexivity|exact Y1|exact Y2|exact Y3|exact Y4|exact Y5|eapply inner_den; eauto|eapply inner_den; eauto| | |].
        * intros Z. rewrite Z in Ec, Ei. eapply inner_den; eauto.
        * intros Z. rewrite Z in Ec, Ei. eapply inner_den; eauto.
        * destruct R as [R|(_ & [=])]. exact R.
      + destruct (smem f slices) eqn:Sl.
        * destruct rest as [|m rest]; [contradiction S|]. destruct S as (Sm & Ee). apply d_slice; [exact Sl|]. apply (IH m w v k z Sm); auto. rewrite <- Ee. exact E.
        * destruct S as (Fe & S). destruct rest as [|a [|b [|? ?]]]; try contradiction S. destruct S as (Sa & Sb & x & y & v' & Px & Py & Ea & Eb & Tm & Dv).
          cbn [eval mapO] in E. rewrite Ea, Eb in E. pose proof (tl_lib _ _ TL _ _ _ Tm) as C. cbn [map] in C. rewrite C in E. injection E as E.
          apply (emb_inj _ _ (tmean_proper _ _ _ Tm) P) in E as <-.
          destruct (tmean_elem _ _ _ _ _ _ _ Fe Tm N) as (xa & xb & Na & Nb & Z).
          eapply d_call; [exact (IH a _ x k xa Sa Ea Px Na)|exact (IH b _ y k xb Sb Eb Py Nb)|exact Z|exact (divisions_elem _ _ _ _ _ _ _ _ Fe Dv Na Nb)| |apply wide_first|apply wide_second].
          destruct R as [R|(-> & R)]; [auto|right; split; [reflexivity|]]. cbn [product] in R. apply smem_cases in R. cbn in R. repeat (destruct R as [<-|R]; [reflexivity|]). contradiction.
  Qed.
End Stands.
