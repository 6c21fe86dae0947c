(** Gemmini kernels: scaled sums, slices, selections, and the whole body; runs are unique. *)

From Coq Require Import String Ascii List ZArith Bool Lia.
From Verif Require Import Ast Dict Semantics SmtPrint SexpProofs UtilProofs SmtPrelude SmtProofs RktModel LibSem PyGram PyParse PyMean NpModel NpSem NpProofs NpProofs3
  GdSem GdProofs6 GdProofs8 GmModel GmSem GmProofs1 GmProofs2 GmProofs3.
Import ListNotations.
Local Open Scope nat_scope.
Local Open Scope list_scope.
Local Open Scope string_scope.

Lemma nth_take {X} (l : list X) : forall k i, i < k -> nth_error (firstn k l) i = nth_error l i.
Proof. induction l as [|x l IH]; intros [|k] [|i] H; try lia; try reflexivity. cbn. apply IH. lia. Qed.

Section Kernel.
  Variables (fns : list (string * expr)) (d : dtype) (len : nat) (junk : string -> nat -> nat -> Z) (params : list (string * ty)) (r : env).
  Hypothesis Pos : 0 < len.
  Hypothesis Small : (Z.of_nat len <= 32767)%Z.
  Hypothesis Names : forall x t, In (x, t) params -> free_name x.
  Notation step := (step len junk). Notation steps := (steps len junk). Notation helper := (helper fns d).
  Notation fits := (fits len params r). Notation small := (small len). Notation computes := (computes fns d len junk params r). Notation operand := (operand fns d len junk params r).

  Lemma value_number tight e z s p st : (if tight : bool then txt s 6 p else sumtxt s p) -> (forall st, numvars params r st -> ceval len st p = Some z) -> number params r tight e z -> vars params r st -> value_of len st s z.
  Proof.
    intros T V _ Vs. exists p. split; [|apply V, vars_numvars, Vs]. destruct tight; [apply (txt_written _ 6); [lia|exact T]|apply (txt_written _ 5); [lia|apply sumtxt_txt, T]].
  Qed.

  Lemma scaled_computes f t ta tb na nb a b xa xb za zb va vb ua ub v : In f adds -> is_array t = true ->
    number params r na a za -> number params r nb b zb -> fits false xa va -> fits false xb vb ->
    tmean "vec_scalar_mul" [DZ za; va] = Some ua -> tmean "vec_scalar_mul" [DZ zb; vb] = Some ub ->
    small ua -> small ub -> tmean f [ua; ub] = Some v -> small v ->
    computes (call f t [call "vec_scalar_mul" ta [a; xa]; call "vec_scalar_mul" tb [b; xb]]) v.
  Proof.
    intros F A Na Nb Fa Fb Ea Eb Sa Sb E Sv.
    destruct (fits_small len params r false xa va Fa) as (Sva & Ava). destruct (fits_small len params r false xb vb Fb) as (Svb & Avb).
    inversion Fa as [x1 t1 v1 P1 A1 R1 Pr1 Sm1 K1 Q1 Q2| | | | | | | | ]; subst. inversion Fb as [x2 t2 v2 P2 A2 R2 Pr2 Sm2 K2 Q3 Q4| | | | | | | | ]; subst.
    destruct (number_text fns d len params r Names na a za Na) as (Hza & sa & pa & (ma & Ga) & Ta & Va). destruct (number_text fns d len params r Names nb b zb Nb) as (Hzb & sb & pb & (mb & Gb) & Tb & Vb).
    destruct (gives_var fns d x1 t1) as (mx & Gx). destruct (gives_var fns d x2 t2) as (my & Gy).
    exists (S (ma + mb + mx + my)). intros [|m] L cur n D K; [lia|].
    exists n, (dset D cur LL), [SResadd "LEN" "LEN" sa sb x1 x2 cur], t.
    split; [|split; [exact A|split; [lia|split; [apply ext_set|split; [rewrite dget_dset, String.eqb_refl; reflexivity|]]]]].
    - assert (X : forall g, call_step fns (helper m) g t [call "vec_scalar_mul" ta [a; Node KVar t1 [Atom (PStr x1)]]; call "vec_scalar_mul" tb [b; Node KVar t2 [Atom (PStr x2)]]] cur (n, D) =
        if smem g ["vec_elemwise_add"; "matrix_elemwise_add"] then Ok (n, dset D cur LL, PcStms [SResadd "LEN" "LEN" sa sb x1 x2 cur], Some t)
        else call_step fns (helper m) g t [call "vec_scalar_mul" ta [a; Node KVar t1 [Atom (PStr x1)]]; call "vec_scalar_mul" tb [b; Node KVar t2 [Atom (PStr x2)]]] cur (n, D)).
      { intros g. destruct (smem g _) eqn:Sg; [|reflexivity]. unfold call_step. cbv zeta. rewrite Sg.
        change (scaled_args (call "vec_scalar_mul" ta [a; Node KVar t1 [Atom (PStr x1)]])) with (Some [a; Node KVar t1 [Atom (PStr x1)]]). change (scaled_args (call "vec_scalar_mul" tb [b; Node KVar t2 [Atom (PStr x2)]])) with (Some [b; Node KVar t2 [Atom (PStr x2)]]). cbn iota.
        cbn [operands]. rewrite (Ga m ltac:(lia)). cbn [bindR fst snd]. rewrite (Gx m ltac:(lia)). cbn [bindR fst snd text_of]. rewrite (Gb m ltac:(lia)). cbn [bindR fst snd]. rewrite (Gy m ltac:(lia)). cbn. unfold dim. cbn [snd]. rewrite (K x1 t1 P1 A1). reflexivity. }
      change (call_step fns (helper m) f t [call "vec_scalar_mul" ta [a; Node KVar t1 [Atom (PStr x1)]]; call "vec_scalar_mul" tb [b; Node KVar t2 [Atom (PStr x2)]]] cur (n, D) = Ok (n, dset D cur LL, PcStms [SResadd "LEN" "LEN" sa sb x1 x2 cur], Some t)).
      rewrite X. cbn in F. destruct F as [<-|[<-|F]]; [reflexivity|reflexivity|contradiction F].
    - intros st m1 V G Ec.
      destruct (arr_of_holds st x1 va Ava (V x1 t1 va P1 R1 Pr1)) as (mx1 & Ex & Cx). destruct (arr_of_holds st x2 vb Avb (V x2 t2 vb P2 R2 Pr2)) as (my1 & Ey & Cy).
      destruct (resadd_run len Pos junk st cur sa sb za zb x1 x2 mx1 my1 m1 Ex Ey Ec (value_number na a za sa pa st Ta Va Na V) (value_number nb b zb sb pb st Tb Vb Nb V)) as (st2 & m2 & S2 & Sm & E2 & C2).
      exists st2. split; [econstructor; [exact S2|constructor]|]. split; [|intros y Ny _; apply Sm, Ny].
      destruct (one_kind "vec_scalar_mul" za va ua ltac:(cbn; auto 10) Ava Ea) as (El1 & Ka & Aua & _). destruct (one_kind "vec_scalar_mul" zb vb ub ltac:(cbn; auto 10) Avb Eb) as (_ & Kb & Aub & _).
      destruct (two_kind f ua ub v ltac:(apply in_or_app; left; exact F) Aua E) as (El & Kua & Kub & Av & _).
      apply (holds_cells st2 cur v Av). exists m2. split; [exact E2|]. intros c r0 z Ez. destruct (spot_in len Pos v c r0 z Av (proj2 Sv) Ez) as (Si & Sj). rewrite (C2 _ _ Si Sj).
      destruct (tmean_elem f ua ub v c r0 z El E Ez) as (za' & zb' & Eza & Ezb & Zo).
      destruct (tmean_elem "vec_scalar_mul" (DZ za) va ua c r0 za' El1 Ea Eza) as (q1 & w1 & Qa & W1 & Zo1). injection Qa as <-. destruct (tmean_elem "vec_scalar_mul" (DZ zb) vb ub c r0 zb' El1 Eb Ezb) as (q2 & w2 & Qb & W2 & Zo2). injection Qb as <-.
      assert (Xa := Cx c r0 w1 W1). assert (Xb := Cy c r0 w2 W2). rewrite (spot_kind va ua c r0 Ka), (spot_kind ua v c r0 Kua) in Xa. rewrite (spot_kind vb ub c r0 Kb), (spot_kind ub v c r0 Kub) in Xb. rewrite Xa, Xb.
      rewrite (wrap8_id w1 (elem_within _ _ va c r0 w1 (proj1 Sva) W1)), (wrap8_id w2 (elem_within _ _ vb c r0 w2 (proj1 Svb) W2)).
      assert (B1 := elem_within _ _ ua c r0 za' (proj1 Sa) Eza). assert (B2 := elem_within _ _ ub c r0 zb' (proj1 Sb) Ezb). assert (B3 := elem_within _ _ v c r0 z (proj1 Sv) Ez).
      assert (M1 : (za * w1)%Z = za') by (cbn in Zo1; injection Zo1 as <-; ring). assert (M2 : (zb * w2)%Z = zb') by (cbn in Zo2; injection Zo2 as <-; ring). rewrite M1, M2, (clip8_id za' B1), (clip8_id zb' B2).
      replace (za' + zb')%Z with z; [apply clip8_id, B3|]. cbn in F. destruct F as [<-|[<-|F]]; [| |contradiction F]; cbn in Zo; injection Zo as <-; reflexivity.
  Qed.

  Lemma take_computes tight t a b x z v : is_array t = true -> operand a x -> small x -> is_arr x -> number params r tight b z -> (z <= Z.of_nat len)%Z ->
    tmean "matrix_take" [x; DZ z] = Some v -> small v -> computes (call "matrix_take" t [a; b]) v.
  Proof.
    intros A (ma & Oa) Sx Ax N Lz E Sv. apply (finish fns d len junk params r Pos); [exact A|left; reflexivity|].
    destruct (number_text fns d len params r Names tight b z N) as (Hz & sz & pz & (mb & Gz) & Tz & Vz).
    destruct x as [q|q|q|q|q]; try contradiction Ax; [discriminate E|].
    assert (E' : exists w, v = DM w /\ (0 <= z)%Z /\ w = firstn (Z.to_nat z) q).
    { cbn in E. destruct (rectb q); [|discriminate E]. cbn in E. destruct (Z.leb 0 z) eqn:Lz0; [|discriminate E]. unfold rows in E. destruct (rectb _); [|discriminate E]. injection E as <-. eexists. split; [reflexivity|]. split; [apply Z.leb_le, Lz0|reflexivity]. }
    destruct E' as (w & -> & Lz0 & ->).
    exists (ma + mb). intros m L cur n D K. destruct (Oa m ltac:(lia) n D K) as (n1 & D1 & pre & na & E1 & Ln & X & Da & Wa & Run).
    destruct (away_name params Names _ _ _ Wa) as (Pa & Ia & Ja).
    exists n1, D1, pre, [na; sz], (SFor2 "0" sz "0" "LEN" cur (na ++ "[i][j]")). split.
    { rewrite E1. rewrite (number_arg fns d params r tight b z sz m mb [] (n1, D1) N Gz) by lia. cbn. rewrite app_nil_r. reflexivity. }
    split; [cbn; unfold dim; cbn [snd]; rewrite Da; reflexivity|]. split; [exact Ln|]. split; [exact X|].
    intros st m1 V G Ec. destruct (Run st V) as (st1 & S1 & Ha & Fr). assert (V1 := vars_frame params r Names _ _ _ _ V Fr).
    destruct (arr_of_holds st1 na (DM q) Logic.I Ha) as (mx & Ex & Cx).
    assert (Ec1 : st1 cur = Some (Arr m1)) by (rewrite (Fr cur); [exact Ec|intros k Lk; apply (proj2 G); lia]).
    assert (Na := away_cur len params Pos _ _ _ _ Wa G).
    destruct (for2_run len Pos (Z.to_nat z) len cur (PIndex (PIndex (PName na) (PName "i")) (PName "j")) (fun i j => wrap8 (mx i j)) st1 m1 Ec1 ltac:(lia) (le_n _)) as (st2 & m2 & R2 & Sb & E2 & C2).
    { intros s i j Sm Hi Hj. apply (ceval_ij len Pos); try assumption; [rewrite Sm by exact Na; exact Ex|lia]. }
    exists st1, st2. split; [exact S1|]. split; [exact Fr|]. split; [|split; [exact Sb|]].
    - apply (s_for2 len junk "0" sz "0" "LEN" cur (na ++ "[i][j]") 0 z 0 (Z.of_nat len) (PIndex (PIndex (PName na) (PName "i")) (PName "j"))); try lia.
      + apply (value_lit len Pos st1 0); lia.
      + exact (value_number tight b z sz pz st1 Tz Vz N V1).
      + apply (value_lit len Pos st1 0); lia.
      + apply (value_len len Pos).
      + apply (txt_written _ 8); [lia|apply txt_ij, Pa].
      + rewrite Z2Nat.id in R2 by exact Lz0. exact R2.
    - apply (holds_cells st2 cur (DM (firstn (Z.to_nat z) q)) Logic.I). exists m2. split; [exact E2|]. intros c r0 u Eu. destruct (spot_in len Pos (DM (firstn (Z.to_nat z) q)) c r0 u Logic.I (proj2 Sv) Eu) as (Si & Sj).
      assert (Bu := elem_within _ _ (DM (firstn (Z.to_nat z) q)) c r0 u (proj1 Sv) Eu).
      cbn [spot fst snd] in *. cbn [elem] in Eu. destruct (nth_error (firstn (Z.to_nat z) q) r0) as [row|] eqn:Rw; [|discriminate Eu].
      assert (Lr : r0 < Z.to_nat z). { assert (r0 < List.length (firstn (Z.to_nat z) q)) by (apply nth_error_Some; congruence). rewrite firstn_length in H. lia. }
      rewrite nth_take in Rw by exact Lr.
      rewrite (C2 r0 c Lr Sj). assert (Xc := Cx c r0 u). cbn [elem spot fst snd] in Xc. rewrite Rw in Xc. rewrite (Xc Eu). rewrite !(wrap8_id u Bu). reflexivity.
  Qed.

  Theorem fits_computes s e v : fits s e v -> s = true -> computes e v.
  Proof.
    induction 1 as [x t v P A R Pr Sm K|sa sb f t a b x y v F A Fa IHa Fb IHb E Sm Neg|tight sb f t a b z y v F A N T Fb IHb E Sm|tight sb f t a b z y v F A N Fb IHb E Sm
      |f t ta tb na nb a b xa xb za zb va vb ua ub v F A Na Nb Fa IHa Fb IHb Ea Eb Sa Sb E Sm|tight sa t a b x z v A Fa IHa N L E Sm|a b t va Fa IHa|a b t vb Fb IHb|x a b t ta va vb w P R Fa IHa Fb IHb Ta At]; intros Es.
    - discriminate Es.
    - destruct (fits_small len params r _ _ _ Fa) as (Sx & Ax). destruct (fits_small len params r _ _ _ Fb) as (Sy & Ay).
      apply (two_computes fns d len junk params r Pos Small Names f t a b x y v); try assumption; [apply (operand_fits fns d len junk params r Pos Names sa); assumption|apply (operand_fits fns d len junk params r Pos Names sb); assumption|].
      right. exists a, b. split; [reflexivity|apply (fits_head len params r _ _ _ Fa)].
    - destruct (fits_small len params r _ _ _ Fb) as (Sy & Ay). apply (one_computes fns d len junk params r Pos Names f t a b z y v tight); try assumption; [apply in_or_app; left; exact F|intros _; exact T|apply (operand_fits fns d len junk params r Pos Names sb); assumption].
    - destruct (fits_small len params r _ _ _ Fb) as (Sy & Ay). apply (one_computes fns d len junk params r Pos Names f t a b z y v tight); try assumption; [apply in_or_app; right; exact F| |apply (operand_fits fns d len junk params r Pos Names sb); assumption].
      intros Fl. exfalso. cbn in F, Fl. destruct F as [<-|[<-|F]]; [| |contradiction F]; destruct Fl as [Fl|[Fl|Fl]]; discriminate Fl || contradiction Fl.
    - exact (scaled_computes f t ta tb na nb a b xa xb za zb va vb ua ub v F A Na Nb Fa Fb Ea Eb Sa Sb E Sm).
    - destruct (fits_small len params r _ _ _ Fa) as (Sx & Ax). apply (take_computes tight t a b x z v); try assumption. apply (operand_fits fns d len junk params r Pos Names sa); assumption.
    - destruct (IHa eq_refl) as (m0 & H). exists (S (S (S m0))). intros [|[|[|m]]] L cur n D K; try lia. destruct (H (S (S m)) ltac:(lia) cur n D K) as (n' & D' & l & t' & Rest). exists n', D', l, t'. exact Rest.
    - destruct (IHb eq_refl) as (m0 & H). exists (S (S (S m0))). intros [|[|[|m]]] L cur n D K; try lia. destruct (H (S (S m)) ltac:(lia) cur n D K) as (n' & D' & l & t' & Rest). exists n', D', l, t'. exact Rest.
    - destruct (IHa eq_refl) as (m1 & Ha). destruct (IHb eq_refl) as (m2 & Hb). clear IHa IHb. destruct (gives_var fns d x TBool) as (m3 & Gx).
      exists (S (m1 + m2 + m3)). intros [|m] L cur n D K; [lia|]. destruct (Ha m ltac:(lia) cur n D K) as (n1 & D1 & l1 & t1 & E1 & A1 & L1 & X1 & C1 & R1).
      destruct (Hb m ltac:(lia) cur n1 D1 (known_ext params _ _ K X1)) as (n2 & D2 & l2 & t2 & E2 & A2 & L2 & X2 & C2 & R2).
      destruct (Names x TBool P) as (Px & Fx & _).
      exists n2, D2, [SIf x l1 l2], ta. split; [|split; [exact At|split; [lia|split; [exact (ext_trans _ _ _ X1 X2)|split; [exact C2|]]]]].
      + cbn [GmModel.helper helper_step]. rewrite (Gx m ltac:(lia)). cbn [bindR fst snd text_of].
        destruct (String.eqb_spec x "True") as [->|_]; [exfalso; apply Fx; cbn; auto 10|]. destruct (String.eqb_spec x "False") as [->|_]; [exfalso; apply Fx; cbn; auto 10|].
        rewrite E1. cbn [bindR fst snd]. rewrite E2. cbn [bindR fst snd stms_of]. rewrite Ta. reflexivity.
      + intros st q V G Ec. assert (Hx : value_of len st x (if w then 1 else 0)%Z).
        { exists (PName x). split; [apply (txt_written _ 8); [lia|apply txt_name, Px]|]. cbn. destruct (String.eqb_spec x "LEN") as [->|_]; [exfalso; apply Fx; cbn; auto 10|].
          assert (Hd := V x TBool (DB w) P R Logic.I). cbn in Hd. rewrite Hd. reflexivity. }
        destruct w.
        * destruct (R1 st q V G Ec) as (st' & S1 & H1 & F1). exists st'. split; [econstructor; [eapply s_if; [exact Hx|exact S1]|constructor]|]. split; [exact H1|]. intros y Ny Hy. apply F1; [exact Ny|intros k Lk; apply Hy; lia].
        * destruct (R2 st q V ltac:(split; [exact (proj1 G)|intros k Lk; apply (proj2 G); lia]) Ec) as (st' & S1 & H1 & F1). exists st'. split; [econstructor; [eapply s_if; [exact Hx|exact S1]|constructor]|]. split; [exact H1|]. intros y Ny Hy. apply F1; [exact Ny|intros k Lk; apply Hy; lia].
  Qed.
End Kernel.

(** ** the value in the language of summaries *)
Section Value.
  Variables (I : interp) (len : nat) (params : list (string * ty)) (r : env).
  Hypothesis Lib : follows tmean I.
  Lemma number_value tight e z : number params r tight e z -> eval I r e = Some (VInt z).
  Proof.
    induction 1 as [z Hz|x z P R Hz|ta tb a b x y A IHa B IHb Hz|ta tb a b x y A IHa B IHb Hz|ta tb a b x y A IHa B IHb Hz].
    - reflexivity.
    - exact R.
    - cbn [eval mapO]. rewrite IHa, IHb. cbn. rewrite ?Z.add_0_r, ?Z.mul_1_r. try reflexivity; repeat f_equal; lia.
    - cbn [eval mapO]. rewrite IHa, IHb. reflexivity.
    - cbn [eval mapO]. rewrite IHa, IHb. cbn. rewrite ?Z.add_0_r, ?Z.mul_1_r. try reflexivity; repeat f_equal; lia.
  Qed.
  Lemma call_value f t args ds v : mapO (eval I r) args = Some (map emb ds) -> tmean f ds = Some v -> eval I r (call f t args) = Some (emb v).
  Proof. intros E T. cbn [eval call]. rewrite E. exact (Lib f ds v T). Qed.
  Lemma fits_value s e v : fits len params r s e v -> eval I r e = Some (emb v).
  Proof.
    induction 1 as [x t v P A R Pr Sm K|sa sb f t a b x y v F A Fa IHa Fb IHb E Sm Neg|tight sb f t a b z y v F A N T Fb IHb E Sm|tight sb f t a b z y v F A N Fb IHb E Sm
      |f t ta tb na nb a b xa xb za zb va vb ua ub v F A Na Nb Fa IHa Fb IHb Ea Eb Sa Sb E Sm|tight sa t a b x z v A Fa IHa N L E Sm|a b t va Fa IHa|a b t vb Fb IHb|x a b t ta va vb w P R Fa IHa Fb IHb Ta At].
    - exact R.
    - apply (call_value f t _ [x; y]); [cbn; rewrite IHa, IHb; reflexivity|exact E].
    - apply (call_value f t _ [DZ z; y]); [cbn; rewrite (number_value _ _ _ N), IHb; reflexivity|exact E].
    - apply (call_value f t _ [DZ z; y]); [cbn; rewrite (number_value _ _ _ N), IHb; reflexivity|exact E].
    - apply (call_value f t _ [ua; ub]); [|exact E]. cbn [mapO].
      rewrite (call_value "vec_scalar_mul" ta [a; xa] [DZ za; va] ua); [|cbn; rewrite (number_value _ _ _ Na), IHa; reflexivity|exact Ea].
      rewrite (call_value "vec_scalar_mul" tb [b; xb] [DZ zb; vb] ub); [reflexivity|cbn; rewrite (number_value _ _ _ Nb), IHb; reflexivity|exact Eb].
    - apply (call_value "matrix_take" t _ [x; DZ z]); [cbn; rewrite (number_value _ _ _ N), IHa; reflexivity|exact E].
    - exact IHa.
    - exact IHb.
    - cbn [eval]. rewrite R. destruct w; assumption.
  Qed.
End Value.

(** ** runs are unique *)
Scheme step_mut := Minimality for step Sort Prop with steps_mut := Minimality for steps Sort Prop.
Combined Scheme run_mut from step_mut, steps_mut.
Section Unique.
  Variables (len : nat) (junk : string -> nat -> nat -> Z).
  Lemma value_fun st s z z' : value_of len st s z -> value_of len st s z' -> z = z'.
  Proof. intros (p & W & E) (p' & W' & E'). rewrite (written_fun _ _ _ W' W) in E'. congruence. Qed.
  Lemma step_steps_fun :
    (forall x st s1, step len junk x st s1 -> forall s2, step len junk x st s2 -> s1 = s2) /\
    (forall l st s1, steps len junk l st s1 -> forall s2, steps len junk l st s2 -> s1 = s2).
  Proof.
    apply run_mut.
    - intros x st s2 H. inversion H; reflexivity.
    - intros r c sa sb a b out zr zc za zb ma mb mo st V1 V2 V3 V4 _ _ _ E1 E2 E3 s2 H. inversion H; subst.
      repeat match goal with A : value_of len st ?s ?z, B : value_of len st ?s ?y |- _ => first [constr_eq z y; clear B|pose proof (value_fun _ _ _ _ A B); subst; clear B] end. congruence.
    - intros hi out rhs z p st st' V W E s2 H. inversion H; subst.
      match goal with A : value_of len st hi z, B : value_of len st hi ?y |- _ => pose proof (value_fun _ _ _ _ A B); subst end.
      match goal with A : written rhs p, B : written rhs ?q |- _ => pose proof (written_fun _ _ _ A B); subst end. congruence.
    - intros lo hi lo2 hi2 out rhs zl z zl2 z2 p st st' V1 V2 V3 V4 _ _ W E s2 H. inversion H; subst.
      match goal with B : for2 len ?a ?b ?c ?e out ?q st = Some s2, B1 : value_of len st lo ?a, B2 : value_of len st hi ?b, B3 : value_of len st lo2 ?c, B4 : value_of len st hi2 ?e, B5 : written rhs ?q |- _ =>
        first [constr_eq q p; fail 1|pose proof (value_fun _ _ _ _ V1 B1); pose proof (value_fun _ _ _ _ V2 B2); pose proof (value_fun _ _ _ _ V3 B3); pose proof (value_fun _ _ _ _ V4 B4); pose proof (written_fun _ _ _ W B5)] end. subst. congruence.
    - intros x y m0 m st E1 E2 s2 H. inversion H; subst. congruence.
    - intros a b out ma mb mo st E1 E2 E3 s2 H. inversion H; subst. congruence.
    - intros c a b z st st' V St IH s2 H. inversion H; subst.
      match goal with B : value_of len st c ?y, C : steps len junk (if Z.eqb ?y 0 then b else a) st s2 |- _ => first [constr_eq y z; fail 1|pose proof (value_fun _ _ _ _ V B); subst; apply IH; exact C] end.
    - intros s z st V s2 H. inversion H; reflexivity.
    - intros st s2 H. inversion H; reflexivity.
    - intros x l st st1 st2 S1 IH1 S2 IH2 s2 H. inversion H; subst. match goal with B : step len junk x st ?s |- _ => first [constr_eq s st1; fail 1|rewrite <- (IH1 _ B) in *; clear B] end. apply IH2. assumption.
  Qed.
  Lemma steps_fun l st s1 s2 : steps len junk l st s1 -> steps len junk l st s2 -> s1 = s2.
  Proof. intros A B. exact (proj2 step_steps_fun l st s1 A s2 B). Qed.
End Unique.
