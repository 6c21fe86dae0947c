(** Gemmini kernels: the statements compute the value of the summary. *)

From Coq Require Import String Ascii List ZArith Bool Lia DecimalString.
From Verif Require Import Ast Dict Semantics SmtPrint SexpProofs UtilProofs SmtPrelude SmtProofs RktModel LibSem PyGram PyParse PyMean NpModel NpSem NpProofs NpProofs3
  GdSem GdProofs6 GdProofs8 GmModel GmSem GmProofs1 GmProofs2.
Import ListNotations.
Local Open Scope nat_scope.
Local Open Scope list_scope.
Local Open Scope string_scope.

Lemma temp_inj n m : temp n = temp m -> n = m.
Proof. unfold temp. cbn. intros E. injection E as E. apply string_of_nat_inj, E. Qed.
Lemma digits_words u : sall word_char (NilEmpty.string_of_uint u) = true.
Proof. induction u; cbn; auto. Qed.
Lemma temp_name n : py_name (temp n) = true.
Proof.
  assert (W : sall word_char (string_of_nat n) = true) by (unfold string_of_nat; apply digits_words).
  unfold temp. change ("temp" ++ string_of_nat n) with (String "t" (String "e" (String "m" (String "p" (string_of_nat n))))). generalize dependent (string_of_nat n). intros w W.
  unfold py_name. cbn [sall]. rewrite W. reflexivity.
Qed.

Section Kernel.
  Variables (fns : list (string * expr)) (d : dtype) (len : nat) (junk : string -> nat -> nat -> Z) (params : list (string * ty)) (r : env).
  Hypothesis Pos : 0 < len.
  Hypothesis Small : (Z.of_nat len <= 32767)%Z.
  Hypothesis Names : forall x t, In (x, t) params -> free_name x.
  Notation step := (step len junk). Notation steps := (steps len junk). Notation helper := (helper fns d).
  Notation fits := (fits len params r). Notation small := (small len).

  Definition LL : string * string := ("LEN", "LEN").
  Definition known (D : dims) : Prop := forall x t, In (x, t) params -> is_array t = true -> dget D x = Some LL.
  Definition ext (D D' : dims) : Prop := forall x, dget D x = Some LL -> dget D' x = Some LL.
  Definition vars (st : state) : Prop := forall x t v, In (x, t) params -> r x = Some (emb v) -> proper v -> holds st x v.
  Definition frame (n n' : nat) (st' st : state) : Prop := forall y, (forall k, n <= k < n' -> y <> temp k) -> st' y = st y.
  Definition goodcur (cur : string) (n : nat) : Prop := (forall x t, In (x, t) params -> x <> cur) /\ forall k, n <= k -> cur <> temp k.

  Lemma ext_refl D : ext D D. Proof. intros x E; exact E. Qed.
  Lemma ext_trans A B C : ext A B -> ext B C -> ext A C. Proof. intros H K x E. apply K, H, E. Qed.
  Lemma ext_set D x : ext D (dset D x LL).
  Proof. intros y E. rewrite dget_dset. destruct (String.eqb y x); [reflexivity|exact E]. Qed.
  Lemma known_ext D D' : known D -> ext D D' -> known D'.
  Proof. intros K E x t P A. apply E, (K x t P A). Qed.
  Lemma holds_eq st st' x v : st' x = st x -> holds st x v -> holds st' x v.
  Proof. intros E. destruct v; cbn; try rewrite E; auto. Qed.
  Lemma vars_numvars st : vars st -> numvars params r st.
  Proof. intros V x z P E. exact (V x TInt (DZ z) P E Logic.I). Qed.
  Lemma param_free x t n : In (x, t) params -> x <> temp n.
  Proof. intros P. destruct (Names x t P) as (_ & _ & F). apply F. Qed.
  Lemma vars_frame n n' st st' : vars st -> frame n n' st' st -> vars st'.
  Proof. intros V F x t v P E Pr. apply (holds_eq st); [apply F; intros k _; apply (param_free x t), P|apply (V x t v P E Pr)]. Qed.
  Lemma frame_trans n m k a b c : n <= m <= k -> frame n m b a -> frame m k c b -> frame n k c a.
  Proof. intros L F G y H. rewrite (G y), (F y); [reflexivity|intros; apply H; lia|intros; apply H; lia]. Qed.
  Lemma steps_app l l' a b c : steps l a b -> steps l' b c -> steps (l ++ l')%list a c.
  Proof. intros S0 T. induction S0; cbn; [exact T|econstructor; [eassumption|auto]]. Qed.

  Lemma fits_small s e v : fits s e v -> small v /\ is_arr v.
  Proof.
    induction 1 as [x t v P A R Pr Sm K|sa sb f t a b x y v F A Fa IHa Fb IHb E Sm Neg|tight sb f t a b z y v F A N T Fb IHb E Sm|tight sb f t a b z y v F A N Fb IHb E Sm
      |f t ta tb na nb a b xa xb za zb va vb ua ub v F A Na Nb Fa IHa Fb IHb Ea Eb Sa Sb E Sm|tight sa t a b x z v A Fa IHa N L E Sm|a b t va Fa IHa|a b t vb Fb IHb|x a b t ta va vb w P R Fa IHa Fb IHb Ta At]; auto.
    - split; [exact Sm|]. apply (two_kind f x y v F (proj2 IHa) E).
    - split; [exact Sm|]. apply (one_kind f z y v); [apply in_or_app; left; exact F|exact (proj2 IHb)|exact E].
    - split; [exact Sm|]. apply (one_kind f z y v); [apply in_or_app; right; apply in_or_app; left; exact F|exact (proj2 IHb)|exact E].
    - split; [exact Sm|]. apply (two_kind f ua ub v); [apply in_or_app; left; exact F| |exact E]. apply (one_kind "vec_scalar_mul" za va ua); [cbn; auto 10|exact (proj2 IHa)|exact Ea].
    - split; [exact Sm|]. destruct IHa as [_ Ax]. destruct x as [q|q|q|m|q]; try contradiction Ax; [discriminate E|]. cbn in E. destruct (rectb m); [|discriminate E]. cbn in E. destruct (Z.leb 0 z); [|discriminate E]. unfold rows in E. destruct (rectb _); [|discriminate E]. injection E as <-. exact Logic.I.
    - destruct w; assumption.
  Qed.
  Lemma fits_head s e v : fits s e v -> scaled_args e = None /\ is_call e || is_ite e = s.
  Proof. destruct 1 as [| |? ? f t a b z y v F| ? ? f t a b z y v F|f t ? ? ? ? ? ? ? ? ? ? ? ? ? ? v F| | | |]; try (split; reflexivity).
    - cbn in H. repeat (destruct H as [<-|H]; [split; reflexivity|]). contradiction H.
    - cbn in F. repeat (destruct F as [<-|F]; [split; reflexivity|]). contradiction F.
    - cbn in F. repeat (destruct F as [<-|F]; [split; reflexivity|]). contradiction F.
    - cbn in F. repeat (destruct F as [<-|F]; [split; reflexivity|]). contradiction F.
  Qed.
  Lemma number_head tight e z : number params r tight e z -> is_call e || is_ite e = false.
  Proof. destruct 1; reflexivity. Qed.

  Definition computes (e : expr) (v : dval) : Prop := exists m0, forall m, m0 <= m -> forall cur n D, known D ->
    exists n' D' l t, helper m e cur (n, D) = Ok ((n', D'), PcStms l, Some t) /\ is_array t = true /\ n <= n' /\ ext D D' /\ dget D' cur = Some LL /\
      forall st m1, vars st -> goodcur cur n -> st cur = Some (Arr m1) ->
        exists st', steps l st st' /\ holds st' cur v /\ forall y, y <> cur -> (forall k, n <= k < n' -> y <> temp k) -> st' y = st y.

  (** an operand: a variable of the summary or a temporary one *)
  Definition away (n n' : nat) (x : string) : Prop := (exists t, In (x, t) params) \/ exists k, n <= k < n' /\ x = temp k.
  Definition operand (a : expr) (x : dval) : Prop := exists m0, forall m, m0 <= m -> forall n D, known D ->
    exists n' D' pre name,
      (forall l, process_args (helper m) (a :: l) (n, D) =
        bindR (process_args (helper m) l (n', D')) (fun q => Ok (fst q, ((pre ++ fst (snd q))%list, name :: snd (snd q))))) /\
      n <= n' /\ ext D D' /\ dget D' name = Some LL /\ away n n' name /\
      forall st, vars st -> exists st', steps pre st st' /\ holds st' name x /\ frame n n' st' st.

  Lemma away_name n n' x : away n n' x -> py_name x = true /\ x <> "i" /\ x <> "j".
  Proof.
    intros [(t & P)|(k & _ & ->)].
    - destruct (Names x t P) as (N & F & _). split; [exact N|]. cbn in F. split; intros ->; apply F; auto.
    - split; [apply temp_name|split; discriminate].
  Qed.
  Lemma away_cur n n' x cur : away n n' x -> goodcur cur n -> x <> cur.
  Proof. intros [(t & P)|(k & L & ->)] (G & H); [exact (G x t P)|]. intros E. apply (H k); [lia|symmetry; exact E]. Qed.

  Lemma operand_var x t v : In (x, t) params -> is_array t = true -> r x = Some (emb v) -> proper v -> operand (Node KVar t [Atom (PStr x)]) v.
  Proof.
    intros P A R Pr. destruct (gives_var fns d x t) as (m0 & G). exists m0. intros m L n D K. exists n, D, [], x. split; [|split; [lia|split; [apply ext_refl|split; [exact (K x t P A)|split; [left; exists t; exact P|]]]]].
    - intros l. cbn [process_args is_call is_ite orb]. rewrite (G m L "" (n, D)). reflexivity.
    - intros st V. exists st. split; [constructor|]. split; [exact (V x t v P R Pr)|intros y _; reflexivity].
  Qed.
  Lemma operand_computed a x : is_call a || is_ite a = true -> computes a x -> operand a x.
  Proof.
    intros C (m0 & H). exists m0. intros m L n D K. destruct (H m L (temp n) (S n) D K) as (n' & D' & l & t & E & A & Ln & X & Dc & Run).
    exists n', D', (SDecl (temp n) :: l), (temp n). split; [|split; [lia|split; [exact X|split; [exact Dc|split; [right; exists n; split; [lia|reflexivity]|]]]]].
    - intros l'. cbn [process_args]. rewrite C. cbn [fst snd]. rewrite E. cbn [bindR fst snd]. rewrite A. reflexivity.
    - intros st V. destruct (Run (put st (temp n) (Arr (junk (temp n)))) (junk (temp n))) as (st' & Ss & Hv & Fr).
      + intros y u v P R Pr. apply (holds_eq st); [apply put_other; apply (param_free y u), P|exact (V y u v P R Pr)].
      + split; [intros y u P; apply (param_free y u), P|]. intros k Lk E'. apply temp_inj in E'. lia.
      + apply put_same.
      + exists st'. split; [econstructor; [apply s_decl|exact Ss]|]. split; [exact Hv|]. intros y Hy. rewrite Fr; [apply put_other, Hy; lia|apply Hy; lia|intros k Lk; apply Hy; lia].
  Qed.
  Lemma operand_fits s a x : fits s a x -> (s = true -> computes a x) -> operand a x.
  Proof.
    intros F C. destruct s; [apply operand_computed; [apply (fits_head _ _ _ F)|auto]|]. inversion F; subst. apply operand_var; assumption.
  Qed.

  (** a call whose arguments are processed one by one *)
  Definition plain_call (f : string) (args : list expr) : Prop := smem f adds = false \/ exists a b, args = [a; b] /\ scaled_args a = None.
  Lemma finish f t args v : is_array t = true -> plain_call f args ->
    (exists m0, forall m, m0 <= m -> forall cur n D, known D -> exists n2 D2 pre ps s,
      process_args (helper m) args (n, D) = Ok ((n2, D2), (pre, ps)) /\
      call_stms f cur ps (n2, D2) = Some (Ok (set_dim (n2, D2) cur LL, PcStms [s])) /\ n <= n2 /\ ext D D2 /\
      forall st m1, vars st -> goodcur cur n -> st cur = Some (Arr m1) ->
        exists st1 st2, steps pre st st1 /\ frame n n2 st1 st /\ step s st1 st2 /\ same_but cur st2 st1 /\ holds st2 cur v) ->
    computes (call f t args) v.
  Proof.
    intros A Pl (m0 & H). exists (S m0). intros [|m] L cur n D K; [lia|]. destruct (H m ltac:(lia) cur n D K) as (n2 & D2 & pre & ps & s & P & C & Ln & X & Run).
    exists n2, (dset D2 cur LL), (pre ++ [s])%list, t. split; [|split; [exact A|split; [exact Ln|split; [|split]]]].
    - assert (E : call_step fns (helper m) f t args cur (n, D) = Ok (n2, dset D2 cur LL, PcStms (pre ++ [s])%list, Some t)).
      { unfold call_step. cbv zeta. rewrite P. cbn [bindR fst snd]. rewrite C. cbn [bindR fst snd stms_of set_dim].
        destruct Pl as [Pl|(a & b & -> & Sa)].
        - change (smem f ["vec_elemwise_add"; "matrix_elemwise_add"]) with (smem f adds). rewrite Pl. reflexivity.
        - rewrite Sa. destruct (smem f _); reflexivity. }
      exact E.
    - apply (ext_trans _ D2); [exact X|apply ext_set].
    - rewrite dget_dset, String.eqb_refl. reflexivity.
    - intros st m1 V G Ec. destruct (Run st m1 V G Ec) as (st1 & st2 & S1 & F & S2 & Sb & Hv). exists st2. split; [|split; [exact Hv|]].
      + apply (steps_app _ _ _ st1); [exact S1|]. econstructor; [exact S2|constructor].
      + intros y Ny Hy. rewrite (Sb y Ny). apply F, Hy.
  Qed.

  (** two arrays as arguments *)
  Lemma pair_args a b x y : operand a x -> operand b y -> exists m0, forall m, m0 <= m -> forall n D, known D -> exists n2 D2 pre na nb,
    process_args (helper m) [a; b] (n, D) = Ok ((n2, D2), (pre, [na; nb])) /\ n <= n2 /\ ext D D2 /\ dget D2 na = Some LL /\ dget D2 nb = Some LL /\ away n n2 na /\ away n n2 nb /\
    forall st, vars st -> exists st', steps pre st st' /\ frame n n2 st' st /\ holds st' na x /\ holds st' nb y.
  Proof.
    intros (ma & A) (mb & B). exists (ma + mb). intros m L n D K. destruct (A m ltac:(lia) n D K) as (n1 & D1 & p1 & na & E1 & L1 & X1 & Da & Wa & R1).
    destruct (B m ltac:(lia) n1 D1 (known_ext _ _ K X1)) as (n2 & D2 & p2 & nb & E2 & L2 & X2 & Db & Wb & R2).
    exists n2, D2, (p1 ++ p2)%list, na, nb. split; [rewrite E1, E2; cbn; rewrite app_nil_r; reflexivity|]. split; [lia|]. split; [apply (ext_trans _ D1); assumption|]. split; [apply X2, Da|]. split; [exact Db|].
    split; [destruct Wa as [Wa|(k & Lk & ->)]; [left; exact Wa|right; exists k; split; [lia|reflexivity]]|]. split; [destruct Wb as [Wb|(k & Lk & ->)]; [left; exact Wb|right; exists k; split; [lia|reflexivity]]|].
    intros st V. destruct (R1 st V) as (st1 & S1 & H1 & F1). destruct (R2 st1 (vars_frame _ _ _ _ V F1)) as (st2 & S2 & H2 & F2).
    exists st2. split; [apply (steps_app _ _ _ st1); assumption|]. split; [apply (frame_trans n n1 n2 st st1 st2); [lia|exact F1|exact F2]|]. split; [|exact H2].
    apply (holds_eq st1); [|exact H1]. apply F2. intros k Lk. destruct Wa as [(t & P)|(k' & Lk' & ->)]; [apply (param_free na t), P|]. intros E. apply temp_inj in E. lia.
  Qed.
  Lemma number_arg tight a z s m ma l g : number params r tight a z -> (forall m, ma <= m -> forall cur g, helper m a cur g = Ok (g, PcExp s, Some TInt)) -> ma <= m ->
    process_args (helper m) (a :: l) g = bindR (process_args (helper m) l g) (fun q => Ok (fst q, (fst (snd q), s :: snd (snd q)))).
  Proof. intros N A L. cbn [process_args]. rewrite (number_head _ _ _ N). rewrite (A m L "" g). reflexivity. Qed.
  (** a number and an array *)
  Lemma num_args tight a z b y s : number params r tight a z -> gives fns d a s TInt -> operand b y ->
    exists m0, forall m, m0 <= m -> forall n D, known D -> exists n2 D2 pre nb,
    process_args (helper m) [a; b] (n, D) = Ok ((n2, D2), (pre, [s; nb])) /\ n <= n2 /\ ext D D2 /\ dget D2 nb = Some LL /\ away n n2 nb /\
    forall st, vars st -> exists st', steps pre st st' /\ frame n n2 st' st /\ holds st' nb y.
  Proof.
    intros N (ma & A) (mb & B). exists (ma + mb). intros m L n D K. destruct (B m ltac:(lia) n D K) as (n2 & D2 & p2 & nb & E2 & L2 & X2 & Db & Wb & R2).
    exists n2, D2, p2, nb. split.
    - rewrite (number_arg tight a z s m ma [b] (n, D) N A) by lia. rewrite E2. cbn. rewrite app_nil_r. reflexivity.
    - split; [exact L2|]. split; [exact X2|]. split; [exact Db|]. split; [exact Wb|]. intros st V. destruct (R2 st V) as (st' & S1 & H1 & F1). exists st'. auto.
  Qed.

  Lemma arr_of_holds st x v : is_arr v -> holds st x v -> exists m, st x = Some (Arr m) /\ cells v m.
  Proof. intros A. apply holds_cells, A. Qed.

  Lemma ceval_mul st a b x y : ceval len st a = Some x -> ceval len st b = Some y -> (-128 <= x <= 127)%Z -> (-128 <= y <= 127)%Z -> ceval len st (PBin OMul a b) = Some (x * y)%Z.
  Proof. intros A B Hx Hy. cbn [ceval]. rewrite A, B. apply int32_ok. nia. Qed.
  Lemma ceval_sub st a b x y : ceval len st a = Some x -> ceval len st b = Some y -> short x -> short y -> ceval len st (PBin OSub a b) = Some (x - y)%Z.
  Proof. unfold short. intros A B Hx Hy. cbn [ceval]. rewrite A, B. apply int32_ok. lia. Qed.

  Lemma two_computes f t a b x y v : In f (adds ++ subs ++ muls) -> is_array t = true -> operand a x -> operand b y -> small x -> small y -> is_arr x -> is_arr y ->
    plain_call f [a; b] -> tmean f [x; y] = Some v -> small v -> (In f subs -> within (-127) 127 y) -> computes (call f t [a; b]) v.
  Proof.
    intros F A Oa Ob Sx Sy Ax Ay Pl E Sv Neg. apply finish; [exact A|exact Pl|]. destruct (pair_args a b x y Oa Ob) as (m0 & H). exists m0. intros m L cur n D K.
    destruct (H m L n D K) as (n2 & D2 & pre & na & nb & P & Ln & X & Da & Db & Wa & Wb & Run). clear H.
    destruct (two_kind f x y v F Ax E) as (El & Kx & Ky & Av & Nm).
    destruct (away_name _ _ _ Wa) as (Pa & Ia & Ja). destruct (away_name _ _ _ Wb) as (Pb & Ib & Jb).
    assert (Cells : forall st1 st2 m2, (forall c r0 za zb z, elem x c r0 = Some za -> elem y c r0 = Some zb -> zop f za zb = Some z -> elem v c r0 = Some z -> m2 (fst (spot v c r0)) (snd (spot v c r0)) = z) ->
      st2 cur = Some (Arr m2) -> holds st1 na x -> holds st2 cur v).
    { intros st1 st2 m2 H Ec _. apply (holds_cells st2 cur v Av). exists m2. split; [exact Ec|]. intros c r0 z Ez. destruct (tmean_elem f x y v c r0 z El E Ez) as (za & zb & Ea & Eb & Zo). exact (H c r0 za zb z Ea Eb Zo Ez). }
    assert (Add : forall s1 s2 z1 z2, (forall st, value_of len st s1 z1) -> (forall st, value_of len st s2 z2) ->
      (forall u w z, (-128 <= u <= 127)%Z -> (-128 <= w <= 127)%Z -> (In f subs -> (-127 <= w)%Z) -> zop f u w = Some z -> clip8 (clip8 (z1 * wrap8 u) + clip8 (z2 * wrap8 w)) = clip8 z) ->
      forall st m1, vars st -> goodcur cur n -> st cur = Some (Arr m1) -> exists st1 st2, steps pre st st1 /\ frame n n2 st1 st /\ step (SResadd "LEN" "LEN" s1 s2 na nb cur) st1 st2 /\ same_but cur st2 st1 /\ holds st2 cur v).
    { intros s1 s2 z1 z2 V1 V2 Ar st m1 V G Ec. destruct (Run st V) as (st1 & S1 & Fr & Ha & Hb).
      destruct (arr_of_holds _ _ _ Ax Ha) as (mx & Ex & Cx). destruct (arr_of_holds _ _ _ Ay Hb) as (my & Ey & Cy).
      assert (Ec1 : st1 cur = Some (Arr m1)) by (rewrite (Fr cur); [exact Ec|intros k Lk; apply (proj2 G); lia]).
      destruct (resadd_run len Pos junk st1 cur s1 s2 z1 z2 na nb mx my m1 Ex Ey Ec1 (V1 st1) (V2 st1)) as (st2 & m2 & S2 & Sb & E2 & C2).
      exists st1, st2. split; [exact S1|]. split; [exact Fr|]. split; [exact S2|]. split; [exact Sb|].
      apply (Cells st1 st2 m2); [|exact E2|exact Ha]. intros c r0 za zb z Ea Eb Zo Ez. destruct (spot_in len Pos v c r0 z Av (proj2 Sv) Ez) as (Si & Sj).
      rewrite (C2 _ _ Si Sj). assert (Xa := Cx c r0 za Ea). assert (Xb := Cy c r0 zb Eb). rewrite (spot_kind x v c r0 Kx) in Xa. rewrite (spot_kind y v c r0 Ky) in Xb. rewrite Xa, Xb.
      rewrite (Ar za zb z); [apply clip8_id, (elem_within _ _ v c r0 z (proj1 Sv) Ez)|exact (elem_within _ _ x c r0 za (proj1 Sx) Ea)|exact (elem_within _ _ y c r0 zb (proj1 Sy) Eb)| |exact Zo].
      intros Fs. apply (elem_within _ _ y c r0 zb (Neg Fs) Eb). }
    assert (One : forall st, value_of len st "1" 1) by (intros st; apply (value_lit len Pos st 1); lia).
    assert (Mone : forall st, value_of len st "-1" (-1)) by (intros st; apply (value_lit len Pos st (-1)); lia).
    assert (Mul : f = "vec_elemwise_mul" \/ f = "matrix_elemwise_mul" ->
      forall st m1, vars st -> goodcur cur n -> st cur = Some (Arr m1) -> exists st1 st2, steps pre st st1 /\ frame n n2 st1 st /\
        step (rights v (na ++ "[i][0] * " ++ nb ++ "[i][0]") (na ++ "[i][j] * " ++ nb ++ "[i][j]") cur) st1 st2 /\ same_but cur st2 st1 /\ holds st2 cur v).
    { intros Fm st m1 V G Ec. destruct (Run st V) as (st1 & S1 & Fr & Ha & Hb).
      destruct (arr_of_holds _ _ _ Ax Ha) as (mx & Ex & Cx). destruct (arr_of_holds _ _ _ Ay Hb) as (my & Ey & Cy).
      assert (Ec1 : st1 cur = Some (Arr m1)) by (rewrite (Fr cur); [exact Ec|intros k Lk; apply (proj2 G); lia]).
      assert (Na := away_cur _ _ _ _ Wa G). assert (Nb := away_cur _ _ _ _ Wb G).
      destruct (rights_run len Pos junk v cur (na ++ "[i][0] * " ++ nb ++ "[i][0]") (na ++ "[i][j] * " ++ nb ++ "[i][j]")
        (PBin OMul (PIndex (PIndex (PName na) (PName "i")) (PNum 0)) (PIndex (PIndex (PName nb) (PName "i")) (PNum 0)))
        (PBin OMul (PIndex (PIndex (PName na) (PName "i")) (PName "j")) (PIndex (PIndex (PName nb) (PName "i")) (PName "j")))
        (fun i j => wrap8 (mx i j) * wrap8 (my i j))%Z st1 m1 Av Ec1) as (st2 & m2 & S2 & Sb & E2 & C2).
      - destruct v as [q|q|q|q|q]; try contradiction Av; split.
        + apply (txt_written _ 6); [lia|]. replace (na ++ "[i][0] * " ++ nb ++ "[i][0]") with ((na ++ "[i][0]") ++ " * " ++ (nb ++ "[i][0]")) by (rewrite !app_s; reflexivity).
          apply (txt_term " * " Star); [exact sep_star|reflexivity| |]; apply (txt_lower _ 7 8); try lia; apply txt_i0; assumption.
        + intros s i Sm Hi. apply ceval_mul; try apply wrap8_range; apply (ceval_i0 len Pos); try assumption; rewrite Sm by assumption; assumption.
        + apply (txt_written _ 6); [lia|]. replace (na ++ "[i][j] * " ++ nb ++ "[i][j]") with ((na ++ "[i][j]") ++ " * " ++ (nb ++ "[i][j]")) by (rewrite !app_s; reflexivity).
          apply (txt_term " * " Star); [exact sep_star|reflexivity| |]; apply (txt_lower _ 7 8); try lia; apply txt_ij; assumption.
        + intros s i j Sm Hi Hj. apply ceval_mul; try apply wrap8_range; apply (ceval_ij len Pos); try assumption; rewrite Sm by assumption; assumption.
      - exists st1, st2. split; [exact S1|]. split; [exact Fr|]. split; [exact S2|]. split; [exact Sb|].
        apply (Cells st1 st2 m2); [|exact E2|exact Ha]. intros c r0 za zb z Ea Eb Zo Ez. destruct (spot_in len Pos v c r0 z Av (proj2 Sv) Ez) as (Si & Sj).
        rewrite (C2 _ _ Si Sj). assert (Xa := Cx c r0 za Ea). assert (Xb := Cy c r0 zb Eb). rewrite (spot_kind x v c r0 Kx) in Xa. rewrite (spot_kind y v c r0 Ky) in Xb. rewrite Xa, Xb.
        assert (Ra := elem_within _ _ x c r0 za (proj1 Sx) Ea). assert (Rb := elem_within _ _ y c r0 zb (proj1 Sy) Eb). assert (Rz := elem_within _ _ v c r0 z (proj1 Sv) Ez).
        rewrite (wrap8_id za Ra), (wrap8_id zb Rb). replace (za * zb)%Z with z; [apply wrap8_id, Rz|]. destruct Fm as [-> | ->]; cbn in Zo; injection Zo as <-; reflexivity. }
    assert (Dm : forall y, dget D2 y = Some LL -> dim (n2, D2) y = Ok LL) by (intros y0 Ey; unfold dim; cbn [snd]; rewrite Ey; reflexivity).
    cbn in F. repeat (destruct F as [<-|F]; [|]); try contradiction F.
    - exists n2, D2, pre, [na; nb], (SResadd "LEN" "LEN" "1" "1" na nb cur). split; [exact P|]. split; [cbn; rewrite (Dm na Da); reflexivity|]. split; [exact Ln|]. split; [exact X|].
      apply (Add "1" "1" 1%Z 1%Z One One). intros u w z Hu Hw _ Zo. cbn in Zo. injection Zo as <-. rewrite (wrap8_id u Hu), (wrap8_id w Hw), !Z.mul_1_l, (clip8_id u Hu), (clip8_id w Hw). reflexivity.
    - exists n2, D2, pre, [na; nb], (SResadd "LEN" "LEN" "1" "1" na nb cur). split; [exact P|]. split; [cbn; rewrite (Dm na Da); reflexivity|]. split; [exact Ln|]. split; [exact X|].
      apply (Add "1" "1" 1%Z 1%Z One One). intros u w z Hu Hw _ Zo. cbn in Zo. injection Zo as <-. rewrite (wrap8_id u Hu), (wrap8_id w Hw), !Z.mul_1_l, (clip8_id u Hu), (clip8_id w Hw). reflexivity.
    - exists n2, D2, pre, [na; nb], (SResadd "LEN" "LEN" "1" "-1" na nb cur). split; [exact P|]. split; [cbn; rewrite (Dm na Da); reflexivity|]. split; [exact Ln|]. split; [exact X|].
      apply (Add "1" "-1" 1%Z (-1)%Z One Mone). intros u w z Hu Hw Hw' Zo. cbn in Zo. injection Zo as <-. specialize (Hw' (or_introl eq_refl)). rewrite (wrap8_id u Hu), (wrap8_id w Hw), !Z.mul_1_l, (clip8_id u Hu), (clip8_id (-1 * w)) by lia. f_equal; lia.
    - exists n2, D2, pre, [na; nb], (SResadd "LEN" "LEN" "1" "-1" na nb cur). split; [exact P|]. split; [cbn; rewrite (Dm na Da); reflexivity|]. split; [exact Ln|]. split; [exact X|].
      apply (Add "1" "-1" 1%Z (-1)%Z One Mone). intros u w z Hu Hw Hw' Zo. cbn in Zo. injection Zo as <-. specialize (Hw' (or_intror (or_introl eq_refl))). rewrite (wrap8_id u Hu), (wrap8_id w Hw), !Z.mul_1_l, (clip8_id u Hu), (clip8_id (-1 * w)) by lia. f_equal; lia.
    - specialize (Mul (or_introl eq_refl)). destruct v as [q|q|q|q|q]; try contradiction Av; [|discriminate Nm].
      exists n2, D2, pre, [na; nb]. eexists. split; [exact P|]. split; [cbn; rewrite (Dm na Da); reflexivity|]. split; [exact Ln|]. split; [exact X|]. exact Mul.
    - specialize (Mul (or_intror eq_refl)). destruct v as [q|q|q|q|q]; try contradiction Av; [discriminate Nm|].
      exists n2, D2, pre, [na; nb]. eexists. split; [exact P|]. split; [cbn; rewrite (Dm na Da); reflexivity|]. split; [exact Ln|]. split; [exact X|]. exact Mul.
  Qed.

  Lemma one_computes f t a b z y v tight : In f (less ++ from) -> is_array t = true -> number params r tight a z -> (In f less -> tight = true) -> operand b y -> small y -> is_arr y ->
    tmean f [DZ z; y] = Some v -> small v -> computes (call f t [a; b]) v.
  Proof.
    intros F A N Ti Ob Sy Ay E Sv. apply finish; [exact A|left; cbn in F; repeat (destruct F as [<-|F]; [reflexivity|]); contradiction F|].
    destruct (number_text fns d len params r Names tight a z N) as (Hz & sz & pz & Gz & Tz & Vz).
    destruct (num_args tight a z b y sz N Gz Ob) as (m0 & H). exists m0. intros m L cur n D K.
    destruct (H m L n D K) as (n2 & D2 & pre & nb & P & Ln & X & Db & Wb & Run). clear H.
    assert (F' : In f (less ++ from ++ ["vec_scalar_mul"])) by (cbn in F |- *; intuition).
    destruct (one_kind f z y v F' Ay E) as (El & Ky & Av & Nm).
    destruct (away_name _ _ _ Wb) as (Pb & Ib & Jb).
    assert (Nv : forall st s i, vars st -> same_but cur s st -> goodcur cur n -> numvars params r (at_ s "i" i) /\ forall j, numvars params r (at_ (at_ s "i" i) "j" j)).
    { intros st s i V Sm G. assert (Ns : numvars params r s) by (intros x0 z0 Pz Ez; rewrite Sm by (exact (proj1 G x0 TInt Pz)); exact (vars_numvars st V x0 z0 Pz Ez)).
      assert (Ni := numvars_at params r Names s "i" i (or_introl eq_refl) Ns). split; [exact Ni|]. intros j. apply (numvars_at params r Names); [cbn; auto|exact Ni]. }
    assert (Go : forall rv rm pv pm (g : Z -> Z), (forall u, (-128 <= u <= 127)%Z -> forall z0, zop f z u = Some z0 -> g u = z0) ->
      match v with
      | DL _ => written rv pv /\ forall st c u, numvars params r (at_ st "i" c) -> ceval len (at_ st "i" c) (PIndex (PIndex (PName nb) (PName "i")) (PNum 0)) = Some u -> (-128 <= u <= 127)%Z -> ceval len (at_ st "i" c) pv = Some (g u)
      | _ => written rm pm /\ forall st c e u, numvars params r (at_ (at_ st "i" c) "j" e) -> ceval len (at_ (at_ st "i" c) "j" e) (PIndex (PIndex (PName nb) (PName "i")) (PName "j")) = Some u -> (-128 <= u <= 127)%Z -> ceval len (at_ (at_ st "i" c) "j" e) pm = Some (g u)
      end ->
      forall st m1, vars st -> goodcur cur n -> st cur = Some (Arr m1) -> exists st1 st2, steps pre st st1 /\ frame n n2 st1 st /\ step (rights v rv rm cur) st1 st2 /\ same_but cur st2 st1 /\ holds st2 cur v).
    { intros rv rm pv pm g Hg Hw st m1 V G Ec. destruct (Run st V) as (st1 & S1 & Fr & Hb). assert (V1 := vars_frame _ _ _ _ V Fr).
      destruct (arr_of_holds _ _ _ Ay Hb) as (my & Ey & Cy).
      assert (Ec1 : st1 cur = Some (Arr m1)) by (rewrite (Fr cur); [exact Ec|intros k Lk; apply (proj2 G); lia]).
      assert (Nb := away_cur _ _ _ _ Wb G).
      destruct (rights_run len Pos junk v cur rv rm pv pm (fun i j => g (wrap8 (my i j))) st1 m1 Av Ec1) as (st2 & m2 & S2 & Sb & E2 & C2).
      - destruct v as [q|q|q|q|q]; try contradiction Av; destruct Hw as (W & Hw); (split; [exact W|]).
        + intros s i Sm Hi. apply Hw; [apply (Nv st1 s i V1 Sm G)|apply (ceval_i0 len Pos); try assumption; rewrite Sm by assumption; assumption|apply wrap8_range].
        + intros s i j Sm Hi Hj. apply Hw; [apply (Nv st1 s i V1 Sm G)|apply (ceval_ij len Pos); try assumption; rewrite Sm by assumption; assumption|apply wrap8_range].
      - exists st1, st2. split; [exact S1|]. split; [exact Fr|]. split; [exact S2|]. split; [exact Sb|].
        apply (holds_cells st2 cur v Av). exists m2. split; [exact E2|]. intros c r0 z0 Ez. destruct (tmean_elem f (DZ z) y v c r0 z0 El E Ez) as (za & zb & Ea & Eb & Zo). injection Ea as <-.
        destruct (spot_in len Pos v c r0 z0 Av (proj2 Sv) Ez) as (Si & Sj). rewrite (C2 c r0 Si Sj). assert (Xb := Cy c r0 zb Eb). rewrite (spot_kind y v c r0 Ky) in Xb. rewrite Xb.
        assert (Rb := elem_within _ _ y c r0 zb (proj1 Sy) Eb). assert (Rz := elem_within _ _ v c r0 z0 (proj1 Sv) Ez). rewrite (wrap8_id zb Rb), (Hg zb Rb z0 Zo). apply wrap8_id, Rz. }
    assert (Dm : dim (n2, D2) nb = Ok LL) by (unfold dim; cbn [snd]; rewrite Db; reflexivity).
    assert (Tz5 : sumtxt sz pz) by (destruct tight; [apply sumtxt_term, Tz|exact Tz]).
    assert (Shu : forall u, (-128 <= u <= 127)%Z -> short u) by (intros u Hu; unfold short; lia).
    cbn in F. destruct F as [<-|[<-|[<-|[<-|F]]]]; [| | | |contradiction F].
    - rewrite (Ti (or_introl eq_refl)) in Tz. destruct v as [q|q|q|q|q]; try contradiction Av; [|discriminate Nm].
      exists n2, D2, pre, [sz; nb]. eexists. split; [exact P|]. split; [cbn; rewrite Dm; reflexivity|]. split; [exact Ln|]. split; [exact X|].
      apply (Go (nb ++ "[i][0] - " ++ sz) "" (PBin OSub (PIndex (PIndex (PName nb) (PName "i")) (PNum 0)) pz) pz (fun u => u - z)%Z); [intros u _ z0 Zo; cbn in Zo; injection Zo as <-; reflexivity|]. split.
      + apply (txt_written _ 5); [lia|]. replace (nb ++ "[i][0] - " ++ sz) with ((nb ++ "[i][0]") ++ " - " ++ sz) by (rewrite !app_s; reflexivity).
        apply sumtxt_txt, (txt_sum " - " Minus); [exact sep_minus|reflexivity|apply sumtxt_term, (txt_lower _ 6 8); try lia; apply txt_i0, Pb|exact Tz].
      + intros st c u Nu Eu Hu. apply ceval_sub; [exact Eu|apply Vz, Nu|apply Shu, Hu|exact Hz].
    - rewrite (Ti (or_intror (or_introl eq_refl))) in Tz. destruct v as [q|q|q|q|q]; try contradiction Av; [discriminate Nm|].
      exists n2, D2, pre, [sz; nb]. eexists. split; [exact P|]. split; [cbn; rewrite Dm; reflexivity|]. split; [exact Ln|]. split; [exact X|].
      apply (Go "" (nb ++ "[i][j] - " ++ sz) pz (PBin OSub (PIndex (PIndex (PName nb) (PName "i")) (PName "j")) pz) (fun u => u - z)%Z); [intros u _ z0 Zo; cbn in Zo; injection Zo as <-; reflexivity|]. split.
      + apply (txt_written _ 5); [lia|]. replace (nb ++ "[i][j] - " ++ sz) with ((nb ++ "[i][j]") ++ " - " ++ sz) by (rewrite !app_s; reflexivity).
        apply sumtxt_txt, (txt_sum " - " Minus); [exact sep_minus|reflexivity|apply sumtxt_term, (txt_lower _ 6 8); try lia; apply txt_ij, Pb|exact Tz].
      + intros st c e u Nu Eu Hu. apply ceval_sub; [exact Eu|apply Vz, Nu|apply Shu, Hu|exact Hz].
    - destruct v as [q|q|q|q|q]; try contradiction Av; [|discriminate Nm].
      exists n2, D2, pre, [sz; nb]. eexists. split; [exact P|]. split; [cbn; rewrite Dm; reflexivity|]. split; [exact Ln|]. split; [exact X|].
      apply (Go (sz ++ " - " ++ nb ++ "[i][0]") "" (PBin OSub pz (PIndex (PIndex (PName nb) (PName "i")) (PNum 0))) pz (fun u => z - u)%Z); [intros u _ z0 Zo; cbn in Zo; injection Zo as <-; reflexivity|]. split.
      + apply (txt_written _ 5); [lia|]. apply sumtxt_txt, (txt_sum " - " Minus); [exact sep_minus|reflexivity|exact Tz5|apply (txt_lower _ 6 8); try lia; apply txt_i0, Pb].
      + intros st c u Nu Eu Hu. apply ceval_sub; [apply Vz, Nu|exact Eu|exact Hz|apply Shu, Hu].
    - destruct v as [q|q|q|q|q]; try contradiction Av; [discriminate Nm|].
      exists n2, D2, pre, [sz; nb]. eexists. split; [exact P|]. split; [cbn; rewrite Dm; reflexivity|]. split; [exact Ln|]. split; [exact X|].
      apply (Go "" (sz ++ " - " ++ nb ++ "[i][j]") pz (PBin OSub pz (PIndex (PIndex (PName nb) (PName "i")) (PName "j"))) (fun u => z - u)%Z); [intros u _ z0 Zo; cbn in Zo; injection Zo as <-; reflexivity|]. split.
      + apply (txt_written _ 5); [lia|]. apply sumtxt_txt, (txt_sum " - " Minus); [exact sep_minus|reflexivity|exact Tz5|apply (txt_lower _ 6 8); try lia; apply txt_ij, Pb].
      + intros st c e u Nu Eu Hu. apply ceval_sub; [apply Vz, Nu|exact Eu|exact Hz|apply Shu, Hu].
  Qed.
End Kernel.
