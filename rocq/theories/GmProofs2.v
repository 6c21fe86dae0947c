(** Gemmini kernels: loops, and the cells of arrays. *)

From Coq Require Import String Ascii List ZArith Bool Lia.
From Verif Require Import Ast Dict Semantics SmtPrint SexpProofs SmtPrelude SmtProofs RktModel LibSem PyGram PyParse PyMean NpModel NpSem NpProofs NpProofs3
  GdSem GdProofs6 GdProofs8 GmModel GmSem GmProofs1.
Import ListNotations.
Local Open Scope nat_scope.
Local Open Scope list_scope.
Local Open Scope string_scope.

Lemma put_same st x v : put st x v x = Some v.
Proof. unfold put. rewrite String.eqb_refl. reflexivity. Qed.
Lemma put_other st x v y : y <> x -> put st x v y = st y.
Proof. intros N. unfold put. destruct (String.eqb_spec x y); congruence. Qed.

Lemma wrap8_id z : (-128 <= z <= 127)%Z -> wrap8 z = z.
Proof. intros H. unfold wrap8. rewrite Z.mod_small; lia. Qed.
Lemma clip8_id z : (-128 <= z <= 127)%Z -> clip8 z = z.
Proof. intros H. unfold clip8. lia. Qed.

Lemma wrap8_range z : (-128 <= wrap8 z <= 127)%Z.
Proof. unfold wrap8. assert (H := Z.mod_pos_bound (z + 128) 256 ltac:(lia)). lia. Qed.

Section Loops.
  Variable len : nat.
  Hypothesis Pos : 0 < len.

  Lemma loop_inv (Inv : nat -> state -> Prop) body n : forall k st, Inv k st ->
    (forall i s, k <= i < k + n -> Inv i s -> exists s', body i s = Some s' /\ Inv (S i) s') ->
    exists st', loop n k body st = Some st' /\ Inv (k + n) st'.
  Proof.
    induction n as [|n IH]; intros k st I0 H; [exists st; rewrite Nat.add_0_r; split; [reflexivity|exact I0]|].
    destruct (H k st ltac:(lia) I0) as (s' & B & I1). destruct (IH (S k) s' I1) as (st' & L & I2); [intros i s Hi; apply H; lia|].
    exists st'. cbn [loop]. rewrite B. split; [exact L|]. replace (k + S n) with (S k + n) by lia. exact I2.
  Qed.

  Lemma store_ok st x i j z m : st x = Some (Arr m) -> i < len -> j < len ->
    store len st x i j z = Some (put st x (Arr (fun a b => if Nat.eqb a i && Nat.eqb b j then wrap8 z else m a b))).
  Proof. intros E I J. unfold store. rewrite E. apply Nat.ltb_lt in I, J. rewrite I, J. reflexivity. Qed.

  Definition same_but (cur : string) (s st : state) : Prop := forall y, y <> cur -> s y = st y.

  Lemma for1_run n cur p g st m : st cur = Some (Arr m) -> n <= len ->
    (forall s i, same_but cur s st -> i < n -> ceval len (at_ s "i" i) p = Some (g i)) ->
    exists st' m', for1 len (Z.of_nat n) cur p st = Some st' /\ same_but cur st' st /\ st' cur = Some (Arr m') /\ forall i, i < n -> m' i 0 = wrap8 (g i).
  Proof.
    intros E L H. unfold for1, rounds. replace (Z.to_nat (Z.of_nat n - 0)) with n by lia.
    set (Inv := fun k s => same_but cur s st /\ exists m', s cur = Some (Arr m') /\ forall i, i < k -> m' i 0 = wrap8 (g i)).
    destruct (loop_inv Inv (fun i st0 => match ceval len (at_ st0 "i" i) p with Some z => store len st0 cur i 0 z | None => None end) n 0 st) as (st' & R & Sb & m' & E' & V).
    - split; [intros y _; reflexivity|]. exists m. split; [exact E|lia].
    - intros i s Hi (Sb & m1 & E1 & V1). rewrite (H s i Sb) by lia. rewrite (store_ok _ _ _ _ _ m1) by (auto; lia). eexists. split; [reflexivity|]. split.
      + intros y Ny. rewrite put_other by exact Ny. apply Sb, Ny.
      + eexists. split; [apply put_same|]. intros k Hk. cbn. rewrite andb_true_r. destruct (Nat.eqb_spec k i) as [->|Nk]; [reflexivity|apply V1; lia].
    - exists st', m'. auto.
  Qed.

  Lemma for2_run n c cur p g st m : st cur = Some (Arr m) -> n <= len -> c <= len ->
    (forall s i j, same_but cur s st -> i < n -> j < c -> ceval len (at_ (at_ s "i" i) "j" j) p = Some (g i j)) ->
    exists st' m', for2 len 0 (Z.of_nat n) 0 (Z.of_nat c) cur p st = Some st' /\ same_but cur st' st /\ st' cur = Some (Arr m') /\
      forall i j, i < n -> j < c -> m' i j = wrap8 (g i j).
  Proof.
    intros E L Lc H. unfold for2, rounds. replace (Z.to_nat (Z.of_nat n - 0)) with n by lia. replace (Z.to_nat (Z.of_nat c - 0)) with c by lia. change (Z.to_nat 0) with 0.
    set (Inv := fun k s => same_but cur s st /\ exists m', s cur = Some (Arr m') /\ forall i j, i < k -> j < c -> m' i j = wrap8 (g i j)).
    edestruct (loop_inv Inv) with (n := n) (k := 0) (st := st) as (st' & R & Sb & m' & E' & V).
    - split; [intros y _; reflexivity|]. exists m. split; [exact E|lia].
    - intros i s Hi (Sb & m1 & E1 & V1).
      set (Inv2 := fun k s' => same_but cur s' st /\ exists m', s' cur = Some (Arr m') /\ (forall a j, a < i -> j < c -> m' a j = wrap8 (g a j)) /\ forall j, j < k -> m' i j = wrap8 (g i j)).
      edestruct (loop_inv Inv2) with (n := c) (k := 0) (st := s) as (st' & R & Sb' & m' & E' & V & W).
      + split; [exact Sb|]. exists m1. split; [exact E1|]. split; [exact V1|lia].
      + intros j s' Hj (Sb' & m2 & E2 & V2 & W2). cbv beta. 
        instantiate (1 := fun j st0 => match ceval len (at_ (at_ st0 "i" i) "j" j) p with Some z => store len st0 cur i j z | None => None end). cbv beta.
        rewrite (H s' i j Sb') by lia. rewrite (store_ok _ _ _ _ _ m2) by (auto; lia). eexists. split; [reflexivity|]. split.
        * intros y Ny. rewrite put_other by exact Ny. apply Sb', Ny.
        * eexists. split; [apply put_same|]. cbn. split.
          -- intros a b Ha Hb. destruct (Nat.eqb_spec a i); [lia|]. cbn. apply V2; lia.
          -- intros b Hb. rewrite Nat.eqb_refl. cbn. destruct (Nat.eqb_spec b j) as [->|Nb]; [reflexivity|apply W2; lia].
      + exists st'. split; [exact R|]. split; [exact Sb'|]. exists m'. split; [exact E'|]. intros a j Ha Hj.
        destruct (Nat.eq_dec a i) as [->|Na]; [apply W; lia|apply V; lia].
    - exists st', m'. auto.
  Qed.

  (** ** values *)
  Lemma position_ok i : i < len -> position len (Z.of_nat i) = Some i.
  Proof. intros L. unfold position. replace (Z.leb 0 (Z.of_nat i)) with true by (symmetry; apply Z.leb_le; lia). replace (Z.ltb (Z.of_nat i) (Z.of_nat len)) with true by (symmetry; apply Z.ltb_lt; lia). cbn. rewrite Nat2Z.id. reflexivity. Qed.

  Lemma ceval_i0 st x i m : x <> "i" -> st x = Some (Arr m) -> i < len ->
    ceval len (at_ st "i" i) (PIndex (PIndex (PName x) (PName "i")) (PNum 0)) = Some (wrap8 (m i 0)).
  Proof.
    intros N E L. cbn [ceval]. unfold at_ at 1. rewrite put_other by exact N. rewrite E.
    change (String.eqb "i" "LEN") with false. cbn iota. unfold at_. rewrite put_same. rewrite (int32_ok 0) by lia. rewrite (position_ok i L).
    rewrite (position_ok 0 Pos : position len 0 = Some 0). reflexivity.
  Qed.
  Lemma ceval_ij st x i j m : x <> "i" -> x <> "j" -> st x = Some (Arr m) -> i < len -> j < len ->
    ceval len (at_ (at_ st "i" i) "j" j) (PIndex (PIndex (PName x) (PName "i")) (PName "j")) = Some (wrap8 (m i j)).
  Proof.
    intros N N2 E L L2. cbn [ceval]. unfold at_. rewrite (put_other _ "j" _ x) by exact N2. rewrite put_other by exact N. rewrite E.
    change (String.eqb "i" "LEN") with false. change (String.eqb "j" "LEN") with false. cbn iota. rewrite put_same. rewrite put_other by discriminate. rewrite put_same. rewrite (position_ok i L), (position_ok j L2). reflexivity.
  Qed.

  Lemma value_len st : value_of len st "LEN" (Z.of_nat len).
  Proof. exists (PName "LEN"). split; [apply (txt_written _ 8); [lia|apply txt_len]|reflexivity]. Qed.
  Lemma value_lit st z : (-2147483647 <= z <= 2147483647)%Z -> value_of len st (string_of_Z z) z.
  Proof.
    intros H. destruct (Z_lt_le_dec z 0) as [L|L].
    - exists (PNeg (PNum (- z))). split; [apply (txt_written _ 7); [lia|apply txt_neg, L]|]. cbn. rewrite int32_ok by lia. rewrite Z.opp_involutive. apply int32_ok. lia.
    - exists (PNum z). split; [apply (txt_written _ 7); [lia|apply txt_num, L]|]. cbn. apply int32_ok. lia.
  Qed.

  (** ** arrays *)
  Definition is_arr (v : dval) : Prop := match v with DL _ | DM _ => True | _ => False end.
  Definition spot (v : dval) (c r : nat) : nat * nat := match v with DL _ => (c, 0) | _ => (r, c) end.
  Definition cells (v : dval) (m : nat -> nat -> Z) : Prop := forall c r z, elem v c r = Some z -> m (fst (spot v c r)) (snd (spot v c r)) = z.

  Lemma holds_cells st x v : is_arr v -> holds st x v <-> exists m, st x = Some (Arr m) /\ cells v m.
  Proof.
    destruct v as [z|b|l|l|l]; cbn; try contradiction; intros _; split; intros (m & E & H); exists m; (split; [exact E|]).
    - intros c r z. cbn. apply H.
    - intros i z N. exact (H i 0 z N).
    - intros c r z. cbn. destruct (nth_error l r) as [row|] eqn:R; [|discriminate]. intros N. exact (H r c row z R N).
    - intros i j row z R N. apply (H j i z). cbn. rewrite R. exact N.
  Qed.
  Lemma spot_in v c r z : is_arr v -> sized len v -> elem v c r = Some z -> fst (spot v c r) < len /\ snd (spot v c r) < len.
  Proof.
    destruct v as [y|b|l|l|l]; cbn; try contradiction; intros _ S0.
    - intros N. assert (c < List.length l) by (apply nth_error_Some; congruence). lia.
    - destruct (nth_error l r) as [row|] eqn:R; [|discriminate]. intros N. assert (r < List.length l) by (apply nth_error_Some; congruence). assert (c < List.length row) by (apply nth_error_Some; congruence).
      destruct S0 as [S1 S2]. rewrite Forall_forall in S2. specialize (S2 row (nth_error_In _ _ R)). lia.
  Qed.

  (** the kinds of the operands and of the result *)
  Definition same_kind (x v : dval) : Prop := match x, v with DL _, DL _ | DM _, DM _ => True | _, _ => False end.
  Definition vec_name (f : string) : bool := dmem vec_elemwise f || dmem vec_scalar f.
  Lemma spot_kind x v c r : same_kind x v -> spot x c r = spot v c r.
  Proof. destruct x, v; cbn; try contradiction; reflexivity. Qed.

  Lemma two_kind f x y v : In f (adds ++ subs ++ muls) -> is_arr x -> tmean f [x; y] = Some v ->
    elementwise_fn f = true /\ same_kind x v /\ same_kind y v /\ is_arr v /\ match v with DL _ => vec_name f = true | _ => vec_name f = false end.
  Proof.
    intros F A E. destruct x as [a|a|l|m|l]; try contradiction A; destruct y as [b|b|l'|m'|l']; cbn in F; repeat (destruct F as [<-|F]; [|]); try contradiction F; try discriminate E.
    all: try (cbn in E; destruct (rectb m); discriminate E).
    all: cbn [tmean] in E.
    all: try (cbn in E; destruct (Nat.eqb _ _); [|discriminate E]; destruct (zipO _ l l'); [|discriminate E]; injection E as <-; repeat split; reflexivity).
    all: cbn in E; destruct (same_dim m m'); [|discriminate E]; destruct (zipO _ m m') as [q|]; [|discriminate E]; cbn in E; unfold rows in E; destruct (rectb q); [|discriminate E]; injection E as <-; repeat split; reflexivity.
  Qed.
  Lemma one_kind f z y v : In f (less ++ from ++ ["vec_scalar_mul"]) -> is_arr y -> tmean f [DZ z; y] = Some v ->
    elementwise_fn f = true /\ same_kind y v /\ is_arr v /\ match v with DL _ => vec_name f = true | _ => vec_name f = false end.
  Proof.
    intros F A E. destruct y as [b|b|l'|m'|l']; try contradiction A; cbn in F; repeat (destruct F as [<-|F]; [|]); try contradiction F; try discriminate E.
    all: cbn [tmean] in E.
    all: try (cbn in E; destruct (mapO _ l'); [|discriminate E]; injection E as <-; repeat split; reflexivity).
    all: cbn in E; destruct (mapO _ m') as [q|]; [|discriminate E]; cbn in E; unfold rows in E; destruct (rectb q); [|discriminate E]; injection E as <-; repeat split; reflexivity.
  Qed.

  (** ** the statements that compute a result *)
  Definition rights (v : dval) (rhs_v rhs_m : string) (cur : string) : stm :=
    match v with DL _ => SFor1 "LEN" cur rhs_v | _ => SFor2 "0" "LEN" "0" "LEN" cur rhs_m end.

  Variable junk : string -> nat -> nat -> Z.
  Notation step := (step len junk). Notation steps := (steps len junk).

  Lemma resadd_run st cur sa sb za zb a b ma mb mo : st a = Some (Arr ma) -> st b = Some (Arr mb) -> st cur = Some (Arr mo) ->
    value_of len st sa za -> value_of len st sb zb ->
    exists st' m', step (SResadd "LEN" "LEN" sa sb a b cur) st st' /\ same_but cur st' st /\ st' cur = Some (Arr m') /\
      forall i j, i < len -> j < len -> m' i j = clip8 (clip8 (za * wrap8 (ma i j)) + clip8 (zb * wrap8 (mb i j))).
  Proof.
    intros A B C SA SB. eexists _, _. split; [|split; [|split]].
    - apply (s_resadd len junk "LEN" "LEN" sa sb a b cur (Z.of_nat len) (Z.of_nat len) za zb ma mb mo); try assumption; try apply value_len; lia.
    - intros y Ny. apply put_other, Ny.
    - apply put_same.
    - intros i j I J. unfold resadd. apply Nat.ltb_lt in J as J'. rewrite J'. replace (Z.ltb _ _) with true; [reflexivity|]. symmetry. apply Z.ltb_lt. rewrite <- Nat2Z.inj_mul. apply inj_lt. nia.
  Qed.
  Lemma rights_run v cur rv rm pv pm g st m : is_arr v -> st cur = Some (Arr m) ->
    match v with
    | DL _ => written rv pv /\ forall s i, same_but cur s st -> i < len -> ceval len (at_ s "i" i) pv = Some (g i 0)
    | _ => written rm pm /\ forall s i j, same_but cur s st -> i < len -> j < len -> ceval len (at_ (at_ s "i" i) "j" j) pm = Some (g i j)
    end ->
    exists st' m', step (rights v rv rm cur) st st' /\ same_but cur st' st /\ st' cur = Some (Arr m') /\
      forall c r, fst (spot v c r) < len -> snd (spot v c r) < len -> m' (fst (spot v c r)) (snd (spot v c r)) = wrap8 (g (fst (spot v c r)) (snd (spot v c r))).
  Proof.
    destruct v as [y|b|l|l|l]; cbn; try contradiction; intros _ E (W & H).
    - destruct (for1_run len cur pv (fun i => g i 0) st m E (le_n _) H) as (st' & m' & R & Sb & E' & V). exists st', m'. split; [|split; [exact Sb|split; [exact E'|intros c r I _; apply V, I]]].
      apply (s_for1 len junk "LEN" cur rv (Z.of_nat len) pv); [apply value_len|exact W|exact R].
    - destruct (for2_run len len cur pm g st m E (le_n _) (le_n _) H) as (st' & m' & R & Sb & E' & V). exists st', m'. split; [|split; [exact Sb|split; [exact E'|intros c r I J; apply V; assumption]]].
      apply (s_for2 len junk "0" "LEN" "0" "LEN" cur rm 0 (Z.of_nat len) 0 (Z.of_nat len) pm); try apply value_len; try lia; try assumption; apply (value_lit st 0); lia.
  Qed.
End Loops.
