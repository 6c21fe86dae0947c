(** The lanes that the instructions for Gaudi compute: numbers, conversions, divisions. *)

From Coq Require Import String Ascii List ZArith Bool Lia QArith Qround.
From Verif Require Import Ast Dict Semantics SmtPrint UtilProofs LibSem RktModel NpModel NpSem GdModel GdSem GdProofs1 GdProofs2 GdProofs3 GdProofs4.
Import ListNotations.
Local Open Scope nat_scope.
Local Open Scope string_scope.
Local Open Scope list_scope.

(** ** numbers *)
Lemma ztrunc_int q z : (q == inject_Z z)%Q -> ztrunc q = z.
Proof.
  unfold Qeq, inject_Z, ztrunc. cbn. rewrite Z.mul_1_r. intros ->. apply Z.quot_mul. pose proof (Pos2Z.is_pos (Qden q)). lia.
Qed.
Lemma floor_int q z : (q == inject_Z z)%Q -> Qfloor q = z.
Proof. intros E. rewrite (Qfloor_comp _ _ E). apply Qfloor_Z. Qed.
Lemma znear_int q z : (q == inject_Z z)%Q -> znear q = z.
Proof.
  intros E. unfold znear. rewrite (floor_int _ _ E). assert (R : (q - inject_Z z == 0)%Q) by (rewrite E; ring).
  assert (Le : Qle_bool (q - inject_Z z) (1 # 2) = true) by (apply Qle_bool_iff; rewrite R; discriminate).
  assert (Ne : Qeq_bool (q - inject_Z z) (1 # 2) = false). { destruct (Qeq_bool _ _) eqn:B; [|reflexivity]. apply Qeq_bool_iff in B. rewrite R in B. discriminate B. }
  rewrite Le, Ne. reflexivity.
Qed.
Lemma rounding_int sw q z : (q == inject_Z z)%Q -> rounding sw q = z.
Proof. unfold rounding. destruct (String.eqb sw "SW_RD"); [apply floor_int|apply znear_int]. Qed.
Lemma u8_id z : (0 <= z <= 255)%Z -> u8 z = inject_Z z.
Proof. intros H. unfold u8. rewrite Z.mod_small by lia. reflexivity. Qed.
Lemma i32_id z : (-2147483648 <= z <= 2147483647)%Z -> i32 z = inject_Z z.
Proof. intros H. unfold i32. rewrite Z.mod_small by lia. f_equal. lia. Qed.
Lemma Qle_bool_int a b x y : (a == inject_Z x)%Q -> (b == inject_Z y)%Q -> Qle_bool a b = Z.leb x y.
Proof.
  intros A B. apply eq_true_iff_eq. rewrite Qle_bool_iff, Z.leb_le, A, B, <- Zle_Qle. reflexivity.
Qed.
Lemma Qeq_bool_int a b x y : (a == inject_Z x)%Q -> (b == inject_Z y)%Q -> Qeq_bool a b = Z.eqb x y.
Proof.
  intros A B. apply eq_true_iff_eq. rewrite Qeq_bool_iff, Z.eqb_eq, A, B. unfold Qeq. cbn. lia.
Qed.
Lemma Qlt_bool_int a b x y : (a == inject_Z x)%Q -> (b == inject_Z y)%Q -> Qlt_bool a b = Z.ltb x y.
Proof. intros A B. unfold Qlt_bool. rewrite (Qle_bool_int _ _ _ _ B A), Z.leb_antisym, negb_involutive. reflexivity. Qed.
Lemma div_floor a b x y : (a == inject_Z x)%Q -> (b == inject_Z y)%Q -> Qfloor (a * / b) = (x / y)%Z.
Proof. intros A B. rewrite Zdiv_Qdiv. apply Qfloor_comp. unfold Qdiv. rewrite A, B. reflexivity. Qed.
Lemma div_exact a b x y : (a == inject_Z x)%Q -> (b == inject_Z y)%Q -> (0 < y)%Z -> (y | x)%Z -> (a * / b == inject_Z (x / y))%Q.
Proof.
  intros A B P (c & ->). rewrite Z.div_mul by lia. rewrite A, B, inject_Z_mult. field. unfold Qeq. cbn. lia.
Qed.

(** ** lanes *)
Definition lane (w : cval) (k : nat) : option Q :=
  match w with Sc q => Some q | Ve l => Some (l k) | V2 lo _ => Some (lo k) | V4 _ _ _ _ => option_map (fun l : lanes => l k) (all_lanes w) end.
Definition is (w : cval) (k : nat) (z : Z) : Prop := exists q, lane w k = Some q /\ (q == inject_Z z)%Q.
Definition in_range (d : dtype) (z : Z) : Prop := (least d <= z <= most d)%Z.
(** the types of results for an element type, and those of intermediate ones *)
Definition allowed (d : dtype) (t : bt) : Prop :=
  match d with
  | UINT_8 => t = UINT8 \/ t = UCHAR256 \/ t = FLOAT64 \/ t = FLOAT256
  | INT32 => t = INT64 \/ t = FLOAT64
  | FLOAT => t = FLOATC \/ t = FLOAT64
  end.
Definition between (d : dtype) (t : bt) : Prop := allowed d t \/ (d = UINT_8 /\ t = UINT256) \/ (d = INT32 /\ t = INT128).

Lemma body_type_allowed d t def : body_type d t = Ok def -> allowed d def /\ (d = UINT_8 -> def <> FLOAT64 /\ def <> FLOAT256).
Proof.
  unfold body_type. intros E. assert (def = match d with UINT_8 => UINT8 | INT32 => INT64 | FLOAT => FLOATC end \/ def = match d with UINT_8 => UCHAR256 | INT32 => INT64 | FLOAT => FLOAT64 end).
  { destruct t; cbn in E; try discriminate E; injection E as <-; auto. }
  destruct d, H as [-> | ->]; cbn; split; auto; intros; split; congruence.
Qed.

Lemma unquad_quad v k : unquad (fun l => v l) (fun l => v (64 + l)) (fun l => v (128 + l)) (fun l => v (192 + l)) k = v k.
Proof.
  unfold unquad. destruct (Nat.ltb_spec k 64); [reflexivity|]. destruct (Nat.ltb_spec k 128); [f_equal; lia|]. destruct (Nat.ltb_spec k 192); f_equal; lia.
Qed.
Lemma quad_lane v k : lane (quad v) k = Some (v k).
Proof. cbn. rewrite unquad_quad. reflexivity. Qed.

Lemma is_ve l k z : is (Ve l) k z <-> (l k == inject_Z z)%Q.
Proof. split; [intros (q & [= <-] & E); exact E|intros E; exists (l k); auto]. Qed.
Lemma is_sc q k z : is (Sc q) k z <-> (q == inject_Z z)%Q.
Proof. split; [intros (q' & [= <-] & E); exact E|intros E; exists q; auto]. Qed.
Lemma is_lanes w l k z : all_lanes w = Some l -> (is w k z <-> (l k == inject_Z z)%Q).
Proof.
  destruct w as [|v|a b c d|]; try discriminate.
  - intros [= <-]. apply is_ve.
  - intros E. unfold is, lane. rewrite E. cbn. split; [intros (q & [= <-] & H); exact H|eauto].
Qed.

Lemma scalar_is d u q z w : scalar_as u q = Some w -> allowed d u -> in_range d z -> (q == inject_Z z)%Q -> forall k, is w k z.
Proof.
  intros E A R Q k. destruct d; cbn in A, R; intuition; subst; cbn in E; try discriminate E; injection E as <-; rewrite ?is_sc, ?is_ve; rewrite ?(ztrunc_int _ _ Q); auto;
    unfold in_range in R; cbn in R; rewrite ?u8_id, ?i32_id by lia; reflexivity.
Qed.
Lemma initial_inv t u v w : initial t (u, v) = Some w -> (exists q, v = Sc q /\ scalar_as t q = Some w) \/ ((forall q, v <> Sc q) /\ t = u /\ w = v).
Proof.
  cbn. destruct v; [intros H; left; eauto|..]; destruct (bt_eqb t u) eqn:B; try discriminate; apply bt_eqb_eq in B; intros [= <-]; right; repeat split; auto; discriminate.
Qed.

Section Conv.
  Variables (tile : string -> option lanes) (st : cst) (d : dtype).

  (** conversions that there are *)
  Lemma conv_cases t u x : between d t -> allowed d u -> forall v, ceval tile st (conv_rhs x t u) = Some v ->
    (t = INT128 /\ u = INT64 /\ ceval tile st (CField (CId x) 1) = Some v) \/
    (is_primitive t = true /\ ceval tile st (CId x) = Some v) \/
    (exists f sw g, dget vec_conv f = Some (t, u, g) /\ dget loads f = None /\ dget vec2 f = None /\
       In (t, u, sw, g) [(UCHAR256, FLOAT256, "0", fun (_ : string) q => q); (UINT256, UCHAR256, "0", fun _ q => u8 (ztrunc q)); (UINT256, FLOAT256, "SW_LINEAR", fun _ q => q);
                      (FLOAT256, UCHAR256, "SW_RD", fun sw q => u8 (rounding sw q)); (INT64, FLOAT64, "0", fun _ q => q); (FLOAT64, INT64, "0", fun sw q => i32 (rounding sw q))] /\
       ceval tile st (CApp f [CId x; CId sw]) = Some v).
  Proof.
    intros B A v E. unfold conv_rhs in E.
    destruct t eqn:Et, u eqn:Eu; cbn [bt_eqb andb is_primitive] in E; try (right; left; split; [reflexivity|exact E]); try (left; auto; fail).
    all: try (right; right; match type of E with ceval _ _ (CApp ?f [_; CId ?sw]) = _ => exists f, sw end; eexists; split; [reflexivity|]; split; [reflexivity|]; split; [reflexivity|];
      split; [unfold In; repeat first [left; reflexivity | right]|exact E]; fail).
    all: exfalso; match type of E with ceval _ _ (CApp ?f _) = _ => let f' := eval vm_compute in f in change f with f' in E end; cbn [ceval] in E;
      match type of E with context [dget loads ?f] => change (dget loads f) with (@None bt) in E; change (dget vec2 f) with (@None (bt * bt * (Q -> Q -> Q))) in E;
        change (dget vec_conv f) with (@None (bt * bt * (string -> Q -> Q))) in E end; discriminate E.
  Qed.

  Lemma conv_is m t u x w k z : holds tile st (let_ m u (conv_rhs x t u)) -> st x = Some (t, w) -> between d t -> allowed d u ->
    (t = INT128 -> exists lo hi, w = V2 lo hi) -> is w k z -> in_range d z \/ (t = UINT256 /\ u = FLOAT256) ->
    exists w', st (fresh m) = Some (u, w') /\ is w' k z /\ (d = UINT_8 -> u = FLOAT64 -> forall k', is w' k' z).
  Proof.
    intros (v & w' & E & N & S') S B A V2s Is R. exists w'. split; [exact S'|].
    destruct (conv_cases _ _ _ B A _ E) as [(-> & -> & E')|[(P & E')|(f & sw & g & F & L & V & I & E')]]; clear E.
    - destruct v as (tv & v). apply ceval_field in E' as (u' & w0 & l & E1 & E2 & E3 & ->). rewrite S in E1. injection E1 as <- <-. destruct (V2s eq_refl) as (lo & hi & ->).
      injection E2 as <-. injection E3 as <-. apply initial_inv in N as [(q & [=] & _)|(_ & _ & ->)]. split; [|intros _ [=]]. destruct Is as (q & [= <-] & Q). apply is_ve. exact Q.
    - destruct v as (tv & v). apply ceval_id in E' as (E' & _). rewrite S in E'. injection E' as <- <-. apply initial_inv in N as [(q & -> & N)|(_ & -> & ->)].
      + apply is_sc in Is. destruct R as [R|(-> & _)]; [|discriminate P]. pose proof (scalar_is d u q z w' N A R Is) as H. auto.
      + split; [exact Is|]. intros _ ->. discriminate P.
    - apply (ceval_conv tile st f t u g) in E' as (va & v0 & w0 & E1 & E2 & E3 & ->); auto. apply ceval_id in E1 as (E1 & _). rewrite S in E1. injection E1 as <-.
      apply (is_lanes _ _ k z E2) in Is. assert (O : forall q, w0 <> Sc q) by (intros q ->; destruct u; discriminate E3).
      apply initial_inv in N as [(q & -> & _)|(_ & _ & ->)]; [destruct (O q eq_refl)|].
      cbn [In] in I. destruct I as [I|[I|[I|[I|[I|[I|[]]]]]]]; injection I as <- <- <- <-; injection E3 as <-; (split; [|intros -> X; try discriminate X; cbn in A; try (exfalso; intuition discriminate)]).
      all: try (exists (v0 k); split; [apply quad_lane|exact Is]).
      all: rewrite ?is_ve, ?(ztrunc_int _ _ Is), ?(rounding_int _ _ _ Is); auto.
      + destruct R as [R|(_ & X)]; [|discriminate X]. destruct d; cbn in A; try (intuition discriminate). unfold in_range in R; cbn in R. rewrite u8_id by lia. reflexivity.
      + destruct R as [R|(_ & X)]; [|discriminate X]. destruct d; cbn in A; try (intuition discriminate). unfold in_range in R; cbn in R. rewrite u8_id by lia. reflexivity.
      + destruct B as [B|[(_ & B)|(B & _)]]; [cbn in B; intuition discriminate|discriminate B|discriminate B].
      + destruct R as [R|(_ & X)]; [|discriminate X]. destruct d; cbn in A; try (intuition discriminate). unfold in_range in R; cbn in R. rewrite i32_id by lia. reflexivity.
  Qed.

  (** ** results *)
  Definition typed (ov : option bt) (i : instr) : Prop :=
    (i_type i = None /\ i_dest i = Some "sum") \/
    exists t x w, i_type i = Some t /\ i_dest i = Some x /\ st x = Some (t, w) /\ allowed d t /\ (d = UINT_8 -> t = FLOAT64 -> ov = Some FLOAT64).
  Definition value (i : instr) (k : nat) (z : Z) : Prop :=
    exists t x w, i_type i = Some t /\ i_dest i = Some x /\ st x = Some (t, w) /\ is w k z /\ (d = UINT_8 -> t = FLOAT64 -> forall k', is w k' z).

  Lemma holds_in l i : Forall (holds tile st) l -> In i l -> holds tile st i.
  Proof. intros F. apply (proj1 (Forall_forall _ _) F). Qed.
  Lemma let_value n t e : holds tile st (let_ n t e) -> exists v w, ceval tile st e = Some v /\ initial t v = Some w /\ st (fresh n) = Some (t, w).
  Proof. auto. Qed.

  Lemma emit_as_typed s loc e t f s' loc' i : emit_as s loc e t f = Ok (s', loc', i) -> Forall (holds tile st) loc' -> allowed d (or_ f t) ->
    (d = UINT_8 -> or_ f t = FLOAT64 -> f = Some FLOAT64) -> typed f i /\ i_type i = Some (or_ f t).
  Proof.
    intros E F A O. apply emit_as_inv in E. cbv zeta in E.
    destruct E as [(_ & -> & -> & X)|(u' & -> & _ & Ei & ->)].
    - assert (or_ f t = t) as H by (destruct X as [-> | ->]; reflexivity). rewrite H in *.
      destruct (let_value (fst s) t e) as (v & w & _ & _ & S); [apply (holds_in _ _ F), in_or_app; cbn; auto|]. split; [right|reflexivity]. exists t, (fresh (fst s)), w. auto.
    - assert (H : holds tile st i) by (apply (holds_in _ _ F), in_or_app; cbn; auto). subst i. apply let_value in H as (v & w & _ & _ & S).
      split; [right|reflexivity]. exists u', (fresh (Datatypes.S (fst s))), w. auto.
  Qed.

  Lemma emit_as_value s loc e t f s' loc' i k z : emit_as s loc e t f = Ok (s', loc', i) -> Forall (holds tile st) loc' -> between d t -> allowed d (or_ f t) ->
    (d = UINT_8 -> t <> FLOAT64) ->
    (forall v w, ceval tile st e = Some v -> initial t v = Some w -> is w k z /\ (t = INT128 -> exists lo hi, w = V2 lo hi)) ->
    in_range d z \/ (t = UINT256 /\ f = Some FLOAT256) -> value i k z.
  Proof.
    intros E F B A N V R. apply emit_as_inv in E. cbv zeta in E.
    destruct E as [(_ & -> & -> & X)|(u & -> & _ & Ei & ->)].
    - destruct (let_value (fst s) t e) as (v & w & E & In' & S); [apply (holds_in _ _ F), in_or_app; cbn; auto|]. destruct (V v w E In') as (Is & _).
      exists t, (fresh (fst s)), w. repeat split; auto. intros D ->. destruct (N D eq_refl).
    - destruct (let_value (fst s) t e) as (v & w & E & In' & S); [apply (holds_in _ _ F), in_or_app; cbn; auto|]. destruct (V v w E In') as (Is & V2s).
      assert (H : holds tile st i) by (apply (holds_in _ _ F), in_or_app; cbn; auto). subst i.
      destruct (conv_is _ _ _ _ _ k z H S B A V2s Is) as (w' & S' & Is' & Fl). { destruct R as [R|(-> & [= ->])]; auto. }
      exists u, (fresh (Datatypes.S (fst s))), w'. auto.
  Qed.

  (** ** divisions *)
  (** the vector and the lane in it *)
  Definition place (k : nat) : nat * nat :=
    if Nat.ltb k 64 then (1, k) else if Nat.ltb k 128 then (2, k - 64) else if Nat.ltb k 192 then (3, k - 128) else (4, k - 192).
  Lemma unquad_place a b c e l k : field (V4 (Some a) (Some b) (Some c) (Some e)) (fst (place k)) = Some l -> unquad a b c e k = l (snd (place k)).
  Proof. unfold unquad, place. destruct (Nat.ltb k 64), (Nat.ltb k 128), (Nat.ltb k 192); intros [= <-]; reflexivity. Qed.

  Definition first_of (i : instr) (x : string) (n : nat) : cexp := if is64 i then CId x else CField (CId x) n.
  Hypothesis Hsum : forall t w, st "sum" = Some (t, w) -> exists q, w = Sc q.
  Lemma operand_field ov i x n u v : typed ov i -> i_dest i = Some x -> is64 i = false -> ceval tile st (CField (CId x) n) = Some (u, v) -> d = UINT_8.
  Proof.
    intros [(_ & D)|(t & y & w & T & Y & S & A & _)] X N E.
    { assert (x = "sum") as -> by congruence. apply ceval_field in E as (u' & w' & l & E1 & _ & E3 & _). destruct (Hsum _ _ E1) as (q & ->). discriminate E3. }
    rewrite X in Y. injection Y as <-.
    apply ceval_field in E as (u' & w' & l & E1 & E2 & _ & _). rewrite S in E1. injection E1 as <- <-.
    unfold is64 in N. rewrite T in *. destruct d; cbn in A; (repeat destruct A as [A|A]); subst t; try discriminate; injection E2 as <-; auto.
  Qed.
  Lemma operand_lane i x k z l3 l u3 u : value i k z -> i_dest i = Some x -> d = UINT_8 -> ceval tile st (first_of i x 3) = Some (u3, Ve l3) ->
    ceval tile st (first_of i x (fst (place k))) = Some (u, Ve l) -> (l (snd (place k)) == inject_Z z)%Q.
  Proof.
    intros (t & y & w & T & Y & S & Is & Fl) X D E3 E. rewrite X in Y. injection Y as <-. unfold first_of, is64 in *. rewrite T in *.
    assert (Hf : t = FLOAT64 \/ (ceval tile st (CField (CId x) 3) = Some (u3, Ve l3) /\ ceval tile st (CField (CId x) (fst (place k))) = Some (u, Ve l))) by (destruct t; auto).
    destruct Hf as [->|(F3 & F)].
    - apply ceval_id in E as (E & _). rewrite S in E. injection E as _ ->. apply is_ve. apply Fl; auto.
    - apply ceval_field in F3 as (a1 & a2 & a3 & E1 & _ & E3' & _). rewrite S in E1. injection E1 as <- <-.
      apply ceval_field in F as (b1 & b2 & b3 & E1 & _ & F' & [= ->]). rewrite S in E1. injection E1 as <- <-.
      destruct w as [q|v|a b c e|lo hi]; try discriminate E3'. destruct Is as (q & L & Q). unfold lane, all_lanes in L. destruct a as [a|], b as [b|], c as [c|], e as [e|]; try discriminate L.
      injection L as <-. rewrite (unquad_place _ _ _ _ _ _ F') in Q. exact Q.
  Qed.

  Lemma quads_hold m fi se : Forall (holds tile st) (quads m fi se) -> exists v, st (fresh m) = Some (FLOAT256, v) /\
    (forall n, 1 <= n <= 4 -> exists a b, ceval tile st (fi n) = Some (FLOAT64, Ve a) /\ ceval tile st (se n) = Some (FLOAT64, Ve b) /\ field v n = Some (fun k => a k * b k)%Q) /\
    holds tile st (let_ (m + 5) UCHAR256 (conv_rhs (fresh m) FLOAT256 UCHAR256)).
  Proof.
    unfold quads. intros F. inversion F as [|? ? H0 F1]; subst.
    assert (D : exists v, st (fresh m) = Some (FLOAT256, v)) by exact H0. destruct D as (v & S). exists v. split; [exact S|].
    inversion F1 as [|? ? H1 F2]; subst. inversion F2 as [|? ? H2 F3]; subst. inversion F3 as [|? ? H3 F4]; subst. inversion F4 as [|? ? H4 F5]; subst. inversion F5 as [|? ? H5 _]; subst.
    split; [|exact H5]. assert (One : forall n, holds tile st (set_ m n (fmul (fi n) (se n))) ->
      exists a b, ceval tile st (fi n) = Some (FLOAT64, Ve a) /\ ceval tile st (se n) = Some (FLOAT64, Ve b) /\ field v n = Some (fun k => a k * b k)%Q).
    { intros n H. assert (D : exists t v u w, st (fresh m) = Some (t, v) /\ ceval tile st (fmul (fi n) (se n)) = Some (u, Ve w) /\ field_type t = Some u /\ field v n = Some w) by exact H.
      destruct D as (t & v' & u & w & S' & E & _ & Fi). rewrite S in S'. injection S' as <- <-. eapply ceval_vec2 in E as (a & b & w' & A & B & O & [= _ Ew]); [|reflexivity|reflexivity].
      injection O as <-. injection Ew as ->. exists a, b. auto. }
    intros n N. destruct n as [|[|[|[|[|n]]]]]; try lia; apply One; assumption.
  Qed.
  Lemma place_range k : 1 <= fst (place k) <= 4.
  Proof. unfold place. destruct (Nat.ltb k 64), (Nat.ltb k 128), (Nat.ltb k 192); cbn; lia. Qed.

  Lemma div_typed ov l1 i1 l2 i2 s s' loc i o1 o2 : div_tail ov (l1, i1) (l2, i2) s = Ok (s', (loc, i)) -> Forall (holds tile st) loc -> (forall u, ov = Some u -> allowed d u) ->
    typed o1 i1 -> typed o2 i2 -> (d = UINT_8 -> is64 i1 && is64 i2 = false) -> typed ov i.
  Proof.
    intros E F A T1 T2 N. apply div_tail_inv in E as (x1 & x2 & X1 & X2 & E). cbv zeta in E. destruct E as [(I1 & I2 & E)|(I12 & m & Em & _ & -> & ->)].
    - apply (emit_as_typed _ _ _ _ _ _ _ _ E F).
      + destruct ov as [u|]; [apply (A u eq_refl)|]. destruct d; cbn; auto.
      + intros D _. specialize (N D). rewrite I1, I2 in N. discriminate N.
    - apply Forall_app in F as (_ & F). apply Forall_app in F as (_ & F). apply quads_hold in F as (v & S & Q & H).
      assert (D : d = UINT_8).
      { destruct (Q 1) as (a & b & Ea & Eb & _); [lia|]. destruct (is64 i1) eqn:I1; [|exact (operand_field _ _ _ _ _ _ T1 X1 I1 Ea)]. destruct (is64 i2) eqn:I2.
        - discriminate I12.
        - apply ceval_recip in Eb as (v' & Eb & _). exact (operand_field _ _ _ _ _ _ T2 X2 I2 Eb). }
      apply let_value in H as (v' & w & _ & _ & S'). right. exists UCHAR256, (fresh (m + 5)), w. repeat split; auto; [rewrite D; cbn; auto|]. intros _ [=].
  Qed.

  Lemma div_value ov l1 i1 l2 i2 s s' loc i o1 o2 k a b : div_tail ov (l1, i1) (l2, i2) s = Ok (s', (loc, i)) -> Forall (holds tile st) loc -> (forall u, ov = Some u -> allowed d u) ->
    typed o1 i1 -> typed o2 i2 -> (d = UINT_8 -> is64 i1 && is64 i2 = false) -> value i1 k a -> value i2 k b -> (0 < b)%Z -> div_ok d a b -> in_range d (a / b) -> value i k (a / b).
  Proof.
    intros E F A T1 T2 N V1 V2 P Ok R. apply div_tail_inv in E as (x1 & x2 & X1 & X2 & E). cbv zeta in E. destruct E as [(I1 & I2 & E)|(I12 & m & Em & _ & -> & ->)].
    - assert (D : d <> UINT_8). { intros D. specialize (N D). rewrite I1, I2 in N. discriminate N. }
      eapply (emit_as_value _ _ _ _ _ _ _ _ k (a / b)%Z E F); auto; try contradiction.
      + left. destruct d; cbn; auto.
      + destruct ov as [u|]; [apply (A u eq_refl)|]. destruct d; cbn; auto.
      + intros v w C In'. split; [|discriminate]. unfold fmul in C. eapply ceval_vec2 in C as (va & vb & w' & C1 & C2 & O & Ev); [|reflexivity|reflexivity]. subst v. injection O as <-.
        apply initial_inv in In' as [(q & [=] & _)|(_ & _ & ->)]. apply is_ve.
        destruct V1 as (t1 & y1 & w1 & Ty1 & Y1 & S1 & Is1 & _). rewrite X1 in Y1. injection Y1 as <-. apply ceval_id in C1 as (C1 & _). rewrite S1 in C1. injection C1 as -> ->. apply is_ve in Is1.
        destruct V2 as (t2 & y2 & w2 & Ty2 & Y2 & S2 & Is2 & _). rewrite X2 in Y2. injection Y2 as <-.
        assert (H : holds tile st (let_ (fst s) FLOAT64 (recip (CId x2)))).
        { apply emit_as_inv in E. cbv zeta in E. destruct E as [(_ & -> & _)|(u' & _ & _ & _ & ->)]; apply (holds_in _ _ F); repeat (apply in_or_app; left || right; cbn; auto; fail); apply in_or_app; left; apply in_or_app; right; cbn; auto. }
        apply let_value in H as (v & w & H1 & H2 & H3). apply ceval_recip in H1 as (vr & H1 & ->). apply initial_inv in H2 as [(q & [=] & _)|(_ & _ & ->)].
        apply ceval_id in H1 as (H1 & _). rewrite S2 in H1. injection H1 as -> ->. apply is_ve in Is2. apply ceval_id in C2 as (C2 & _). rewrite H3 in C2. injection C2 as <-.
        apply div_exact; auto. clear - D Ok; destruct d; cbn in Ok; first [destruct (D eq_refl) | exact Ok].
    - apply Forall_app in F as (_ & F). apply Forall_app in F as (Fj & F). apply quads_hold in F as (v & S & Q & H).
      assert (D : d = UINT_8).
      { destruct (Q 1) as (a' & b' & Ea & Eb & _); [lia|]. destruct (is64 i1) eqn:I1; [|exact (operand_field _ _ _ _ _ _ T1 X1 I1 Ea)]. destruct (is64 i2) eqn:I2.
        - discriminate I12.
        - apply ceval_recip in Eb as (v' & Eb & _). exact (operand_field _ _ _ _ _ _ T2 X2 I2 Eb). }
      apply let_value in H as (v' & w & H1 & H2 & H3). exists UCHAR256, (fresh (m + 5)), w. repeat split; auto; [|intros _ [=]].
      unfold conv_rhs in H1. eapply ceval_conv in H1 as (va & l & w' & H1 & L & O & Ev); [|reflexivity|reflexivity|reflexivity]. subst v'. injection O as <-.
      apply ceval_id in H1 as (H1 & _). rewrite S in H1. injection H1 as <-. apply initial_inv in H2 as [(q & [=] & _)|(_ & _ & ->)]. apply is_ve.
      destruct (Q (fst (place k)) (place_range k)) as (ka & kb & Ea & Eb & Fk). destruct (Q 3) as (a3 & b3 & Ea3 & Eb3 & F3); [lia|].
      assert (Lk : l k = (ka (snd (place k)) * kb (snd (place k)))%Q).
      { destruct v as [| |v1 v2 v3 v4|]; try discriminate L; try discriminate F3. cbn in L. destruct v1 as [v1|], v2 as [v2|], v3 as [v3|], v4 as [v4|]; try discriminate L. injection L as <-. apply (unquad_place _ _ _ _ _ _ Fk). }
      change (switch_of FLOAT256 UCHAR256) with "SW_RD". unfold rounding. cbn [String.eqb Ascii.eqb Bool.eqb]. rewrite Lk.
      assert (Ka : (ka (snd (place k)) == inject_Z a)%Q) by exact (operand_lane i1 x1 k a a3 ka _ _ V1 X1 D Ea3 Ea).
      assert (Kb : exists l, kb = (fun k => / l k)%Q /\ (l (snd (place k)) == inject_Z b)%Q).
      { destruct (is64 i2) eqn:I2.
        - assert (H : holds tile st (let_ (fst s) FLOAT64 (recip (CId x2)))) by (inversion Fj; assumption).
          apply let_value in H as (v'' & w & H4 & H5 & H6). apply ceval_recip in H4 as (vr & H4 & ->). apply initial_inv in H5 as [(q & [=] & _)|(_ & _ & ->)].
          apply ceval_id in Eb as (Eb & _). rewrite H6 in Eb. injection Eb as <-. exists vr. split; [reflexivity|].
          apply (operand_lane i2 x2 k b vr vr FLOAT64 FLOAT64 V2 X2 D); unfold first_of; rewrite I2; exact H4.
        - apply ceval_recip in Eb3 as (l3 & Eb3 & _). apply ceval_recip in Eb as (lb & Eb & [= ->]). exists lb. split; [reflexivity|].
          apply (operand_lane i2 x2 k b l3 lb FLOAT64 FLOAT64 V2 X2 D); unfold first_of; rewrite I2; assumption. }
      destruct Kb as (lb & -> & Kb). rewrite (div_floor _ _ _ _ Ka Kb). rewrite D in R. unfold in_range in R. cbn in R. rewrite u8_id by lia. reflexivity.
  Qed.
End Conv.
