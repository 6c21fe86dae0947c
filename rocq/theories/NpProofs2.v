(** Proofs for C45: the values of the tensor functions, computed with arrays. *)

From Coq Require Import String Ascii List ZArith Bool Lia.
From Verif Require Import Ast Semantics Dict PyGram RktModel LibSem NpModel NpSem.
Import ListNotations.
Local Open Scope string_scope.
Local Open Scope list_scope.
Local Open Scope Z_scope.

(** ** lists *)
Lemma mapO_rel {A B A' B'} (ha : A -> A') (hb : B -> B') (f : A' -> option B') (g : A -> option B) (P : B -> Prop) l :
  (forall a b, In a l -> g a = Some b -> P b -> f (ha a) = Some (hb b)) ->
  forall res, mapO g l = Some res -> Forall P res -> mapO f (map ha l) = Some (map hb res).
Proof.
  induction l as [|a l IH]; intros H res E F; cbn [mapO] in E; [injection E as <-; reflexivity|].
  destruct (g a) as [b|] eqn:G; [|discriminate E]. destruct (mapO g l) as [bs|]; [|discriminate E]. injection E as <-.
  inversion F; subst. cbn [map mapO]. rewrite (H a b); auto; [|left; reflexivity].
  rewrite (IH (fun a b I => H a b (or_intror I)) bs eq_refl); auto.
Qed.
Lemma zipO_rel {A B C A' B' C'} (ha : A -> A') (hb : B -> B') (hc : C -> C') (f : A' -> B' -> option C') (g : A -> B -> option C) (P : C -> Prop) l r :
  (forall a b c, In (a, b) (combine l r) -> g a b = Some c -> P c -> f (ha a) (hb b) = Some (hc c)) ->
  forall res, zipO g l r = Some res -> Forall P res -> zipO f (map ha l) (map hb r) = Some (map hc res).
Proof.
  intros H res E F. unfold zipO in *.
  assert (X : combine (map ha l) (map hb r) = map (fun p => (ha (fst p), hb (snd p))) (combine l r)).
  { clear. revert r. induction l as [|a l IH]; intros [|b r]; cbn; try reflexivity. rewrite IH. reflexivity. }
  rewrite X. apply (mapO_rel _ _ _ (fun p => g (fst p) (snd p)) P); auto. intros [a b] c I G K. cbn [fst snd] in *. eauto.
Qed.
Lemma mapO_len {A B} (f : A -> option B) l : forall res, mapO f l = Some res -> List.length res = List.length l.
Proof.
  induction l as [|a l IH]; intros res E; cbn [mapO] in E; [injection E as <-; reflexivity|].
  destruct (f a); [|discriminate E]. destruct (mapO f l) as [bs|]; [|discriminate E]. injection E as <-. cbn. rewrite (IH bs); auto.
Qed.
Lemma rect_rows m : rectb m = true -> forall r, In r m -> List.length r = num_cols m.
Proof.
  destruct m as [|r0 m]; [discriminate|]. cbn [rectb num_cols]. intros H r I. rewrite forallb_forall in H. apply Nat.eqb_eq. apply H, I.
Qed.
Lemma same_dim_inv m n : same_dim m n = true ->
  rectb m = true /\ rectb n = true /\ List.length m = List.length n /\ num_cols m = num_cols n.
Proof.
  unfold same_dim. intros H. repeat (apply andb_true_iff in H; destruct H as [H ?]). repeat split; auto; apply Nat.eqb_eq; assumption.
Qed.
Lemma same_rows m n a b : same_dim m n = true -> In (a, b) (combine m n) -> List.length a = List.length b.
Proof.
  intros H I. apply same_dim_inv in H. destruct H as [Rm [Rn [_ C]]].
  rewrite (rect_rows m Rm a), (rect_rows n Rn b); [exact C|exact (in_combine_r _ _ _ _ I)|exact (in_combine_l _ _ _ _ I)].
Qed.
Lemma stretch_same {A B C} (f : A -> B -> option C) l r : List.length l = List.length r -> stretch f l r = zipO f l r.
Proof. intros E. unfold stretch. rewrite (proj2 (Nat.eqb_eq _ _) E). reflexivity. Qed.

(** ** slices *)
Lemma nslice_map {A B} (h : A -> B) lo hi l : nslice lo hi (map h l) = map h (nslice lo hi l).
Proof. unfold nslice, nclamp. rewrite map_length, <- firstn_map, <- skipn_map. destruct lo, hi; reflexivity. Qed.
Lemma clamp_pos {A} (l : list A) i : 0 <= i -> nclamp l i = Nat.min (Z.to_nat i) (List.length l).
Proof. intros H. unfold nclamp. destruct (i <? 0) eqn:E; [lia|]. lia. Qed.
Lemma skipn_min {A} n (l : list A) : skipn (Nat.min n (List.length l)) l = skipn n l.
Proof. destruct (Nat.le_ge_cases n (List.length l)) as [H|H]; [rewrite Nat.min_l; auto|]. rewrite Nat.min_r, !skipn_all2; auto. Qed.
Lemma firstn_min {A} n (l : list A) : firstn (Nat.min n (List.length l)) l = firstn n l.
Proof. destruct (Nat.le_ge_cases n (List.length l)) as [H|H]; [rewrite Nat.min_l; auto|]. rewrite Nat.min_r, !firstn_all2; auto. Qed.
Lemma nslice_between {A} i j (l : list A) : 0 <= i -> 0 <= j -> nslice (Some i) (Some j) l = between_ i j l.
Proof.
  intros Hi Hj. unfold nslice, between_. rewrite (clamp_pos l i Hi), (clamp_pos l j Hj), skipn_min.
  rewrite <- (firstn_min (Z.to_nat j - Z.to_nat i)). rewrite skipn_length.
  destruct (Nat.le_ge_cases (Z.to_nat i) (List.length l)) as [H|H].
  - rewrite (Nat.min_l (Z.to_nat i)) by exact H. f_equal. lia.
  - rewrite (skipn_all2 l) by exact H. rewrite !firstn_nil. reflexivity.
Qed.
Lemma nslice_upto {A} j (l : list A) : 0 <= j -> nslice None (Some j) l = firstn (Z.to_nat j) l.
Proof. intros Hj. unfold nslice. rewrite (clamp_pos l j Hj), Nat.sub_0_r. cbn [skipn]. apply firstn_min. Qed.
Lemma nslice_from {A} i (l : list A) : 0 <= i -> nslice (Some i) None l = skipn (Z.to_nat i) l.
Proof.
  intros Hi. unfold nslice. rewrite (clamp_pos l i Hi), skipn_min.
  destruct (Nat.le_ge_cases (Z.to_nat i) (List.length l)) as [H|H].
  - rewrite firstn_all2; [reflexivity|]. rewrite skipn_length. lia.
  - rewrite (skipn_all2 l) by exact H. apply firstn_nil.
Qed.
Lemma nindex_in {A B} (h : A -> B) (l : list A) i d : inb l i = true -> nindex (map h l) i = Some (h (nth (Z.to_nat i) l d)).
Proof.
  unfold inb, nindex. intros H. apply andb_true_iff in H. destruct H as [H1 H2]. apply Z.leb_le in H1. apply Z.ltb_lt in H2.
  destruct (i <? 0) eqn:E; [lia|]. rewrite E, nth_error_map, (nth_error_nth' l d) by lia. reflexivity.
Qed.

Section Values.
  Variables (W : Z -> Z) (lo hi : Z).
  Hypothesis Wok : forall z, lo <= z <= hi -> W z = z.
  Local Notation fine := (fun z : Z => lo <= z <= hi).

  (** the operation on elements computes the operation of the DSL *)
  Definition agree (o : bin) (g : Z -> Z -> option Z) : Prop :=
    forall a b c, g a b = Some c -> lo <= c <= hi -> eop W o (EI a) (EI b) = Some (EI c).
  Lemma agree_add : agree OAdd tadd.
  Proof. intros a b c E F. injection E as <-. cbn [eop]. unfold ei. rewrite Wok; auto. Qed.
  Lemma agree_sub : agree OSub tsub.
  Proof. intros a b c E F. injection E as <-. cbn [eop]. unfold ei. rewrite Wok; auto. Qed.
  Lemma agree_mul : agree OMul tmul.
  Proof. intros a b c E F. injection E as <-. cbn [eop]. unfold ei. rewrite Wok; auto. Qed.
  Lemma agree_div : agree OFloor pdiv.
  Proof.
    intros a b c E F. unfold pdiv in E. destruct (0 <? b) eqn:P; [|discriminate E]. injection E as <-. cbn [eop].
    destruct (b =? 0) eqn:Z0; [lia|]. unfold ei. rewrite Wok; auto.
  Qed.

  Definition nops (swap : bool) (o : bin) (x y : arr elt) : option nval := if swap then nbin W o y x else nbin W o x y.
  Lemma ops_vec o g l r res : agree o g -> List.length l = List.length r -> zipO g l r = Some res -> Forall fine res ->
    nops false o (AV (map EI l)) (AV (map EI r)) = Some (NA (AV (map EI res))).
  Proof.
    intros A L E F. unfold nops. assert (X : nbin W o (AV (map EI l)) (AV (map EI r)) = option_map NA (broadcast (eop W o) (AV (map EI l)) (AV (map EI r)))) by (destruct o; reflexivity).
    rewrite X. cbn [broadcast]. rewrite stretch_same by (rewrite !map_length; exact L).
    rewrite (zipO_rel EI EI EI (eop W o) g fine l r) with (res := res); auto.
  Qed.
  Lemma ops_mat o g m n res : agree o g -> same_dim m n = true -> zipO (zipO g) m n = Some res -> Forall (Forall fine) res ->
    nops false o (AM (map (map EI) m)) (AM (map (map EI) n)) = Some (NA (AM (map (map EI) res))).
  Proof.
    intros A S E F. unfold nops. assert (X : nbin W o (AM (map (map EI) m)) (AM (map (map EI) n)) = option_map NA (broadcast (eop W o) (AM (map (map EI) m)) (AM (map (map EI) n)))) by (destruct o; reflexivity).
    rewrite X. cbn [broadcast]. rewrite stretch_same by (rewrite !map_length; apply (same_dim_inv _ _ S)).
    rewrite (zipO_rel (map EI) (map EI) (map EI) (stretch (eop W o)) (zipO g) (Forall fine) m n) with (res := res); auto.
    intros a b c I G K. rewrite stretch_same by (rewrite !map_length; apply (same_rows _ _ _ _ S I)). apply (zipO_rel EI EI EI (eop W o) g fine); auto.
  Qed.
  Lemma ops_svec (swap : bool) o (g : Z -> Z -> option Z) a l res : agree o (if swap then flip g else g) -> mapO (g a) l = Some res -> Forall fine res ->
    nops swap o (AS (EI a)) (AV (map EI l)) = Some (NA (AV (map EI res))).
  Proof.
    intros A E F.
    assert (X : nops swap o (AS (EI a)) (AV (map EI l)) =
                option_map (fun x => NA (AV x)) (mapO (fun y => if swap then eop W o y (EI a) else eop W o (EI a) y) (map EI l))).
    { destruct swap, o; cbn [nops nbin broadcast]; match goal with |- context [mapO ?f ?x] => destruct (mapO f x) end; reflexivity. }
    rewrite X. rewrite (mapO_rel EI EI _ (g a) fine l) with (res := res); auto.
    intros b c _ G K. destruct swap; apply A; auto.
  Qed.
  Lemma ops_smat (swap : bool) o (g : Z -> Z -> option Z) a m res : agree o (if swap then flip g else g) -> mapO (mapO (g a)) m = Some res -> Forall (Forall fine) res ->
    nops swap o (AS (EI a)) (AM (map (map EI) m)) = Some (NA (AM (map (map EI) res))).
  Proof.
    intros A E F.
    assert (X : nops swap o (AS (EI a)) (AM (map (map EI) m)) =
                option_map (fun x => NA (AM x)) (mapO (mapO (fun y => if swap then eop W o y (EI a) else eop W o (EI a) y)) (map (map EI) m))).
    { destruct swap, o; cbn [nops nbin broadcast]; match goal with |- context [mapO ?f ?x] => destruct (mapO f x) end; reflexivity. }
    rewrite X. rewrite (mapO_rel (map EI) (map EI) _ (mapO (g a)) (Forall fine) m) with (res := res); auto.
    intros b c _ G K. apply (mapO_rel EI EI _ (g a) fine); auto. intros b0 c0 _ G0 K0. destruct swap; apply A; auto.
  Qed.

  (** the operator of an infix notation *)
  Definition op_text (o : bin) : string :=
    match o with OAdd => " + " | OSub => " - " | OMul => " * " | OFloor => " // " | OMod => " % " | ODiv => " / " end.
  Definition infix_right (f : string) (o : bin) (swap : bool) : Prop :=
    np_infix true f = Some (op_text o, swap) /\
    forall ds v, tmean f ds = Some v -> within lo hi v ->
      exists d1 d2, ds = [d1; d2] /\ nops swap o (arr_of d1) (arr_of d2) = Some (NA (arr_of v)).
  Lemma rows_inv m v : rows_of m = Some v -> exists m', m = Some m' /\ v = DM m'.
  Proof. destruct m as [m|]; [|discriminate]. cbn. unfold rows. destruct (rectb m); [|discriminate]. intros E. injection E as <-. eauto. Qed.
  Lemma infix_vec f o g : dget vec_elemwise f = Some g -> agree o g -> dget mat_elemwise f = None -> dget vec_scalar f = None -> dget mat_scalar f = None ->
    np_infix true f = Some (op_text o, false) ->
    (forall m l, tmean f [DM m; DL l] = None) -> (forall l i, tmean f [DL l; DZ i] = None) -> (forall m i, tmean f [DM m; DZ i] = None) ->
    (forall l, tmean f [DL l] = None) -> (forall m i j, tmean f [DM m; DZ i; DZ j] = None) -> (forall m i j, tmean f [DL m; DZ i; DZ j] = None) ->
    infix_right f o false.
  Proof.
    intros G A N1 N2 N3 T K1 K2 K3 K4 K5 K6. split; [exact T|]. intros ds v E F.
    destruct ds as [|[a|a|a|a|a] [|[b|b|b|b|b] [|[c|c|c|c|c] [|? ?]]]]; try discriminate E;
      try (rewrite ?K1, ?K2, ?K3, ?K4, ?K5, ?K6 in E; discriminate E); cbn [tmean] in E; rewrite ?N1, ?N2, ?N3 in E; try discriminate E.
    rewrite G in E. destruct (Nat.eqb (List.length a) (List.length b)) eqn:L; [|discriminate E]. apply Nat.eqb_eq in L.
    destruct (zipO g a b) as [res|] eqn:R; [|discriminate E]. injection E as <-. eexists _, _. split; [reflexivity|]. apply (ops_vec o g); auto.
  Qed.
  Lemma infix_mat f o g : dget mat_elemwise f = Some g -> agree o g -> dget vec_elemwise f = None -> dget vec_scalar f = None -> dget mat_scalar f = None ->
    np_infix true f = Some (op_text o, false) ->
    (forall m l, tmean f [DM m; DL l] = None) -> (forall l i, tmean f [DL l; DZ i] = None) -> (forall m i, tmean f [DM m; DZ i] = None) ->
    (forall l, tmean f [DL l] = None) -> (forall m i j, tmean f [DM m; DZ i; DZ j] = None) -> (forall m i j, tmean f [DL m; DZ i; DZ j] = None) ->
    infix_right f o false.
  Proof.
    intros G A N1 N2 N3 T K1 K2 K3 K4 K5 K6. split; [exact T|]. intros ds v E F.
    destruct ds as [|[a|a|a|a|a] [|[b|b|b|b|b] [|[c|c|c|c|c] [|? ?]]]]; try discriminate E;
      try (rewrite ?K1, ?K2, ?K3, ?K4, ?K5, ?K6 in E; discriminate E); cbn [tmean] in E; rewrite ?N1, ?N2, ?N3 in E; try discriminate E.
    rewrite G in E. destruct (same_dim a b) eqn:L; [|discriminate E].
    apply rows_inv in E. destruct E as [res [R ->]]. eexists _, _. split; [reflexivity|]. apply (ops_mat o g); auto.
  Qed.
  Lemma infix_svec f o (swap : bool) g : dget vec_scalar f = Some g -> agree o (if swap then flip g else g) -> dget vec_elemwise f = None -> dget mat_elemwise f = None -> dget mat_scalar f = None ->
    np_infix true f = Some (op_text o, swap) ->
    (forall m l, tmean f [DM m; DL l] = None) -> (forall l i, tmean f [DL l; DZ i] = None) -> (forall m i, tmean f [DM m; DZ i] = None) ->
    (forall l, tmean f [DL l] = None) -> (forall m i j, tmean f [DM m; DZ i; DZ j] = None) -> (forall m i j, tmean f [DL m; DZ i; DZ j] = None) ->
    infix_right f o swap.
  Proof.
    intros G A N1 N2 N3 T K1 K2 K3 K4 K5 K6. split; [exact T|]. intros ds v E F.
    destruct ds as [|[a|a|a|a|a] [|[b|b|b|b|b] [|[c|c|c|c|c] [|? ?]]]]; try discriminate E;
      try (rewrite ?K1, ?K2, ?K3, ?K4, ?K5, ?K6 in E; discriminate E); cbn [tmean] in E; rewrite ?N1, ?N2, ?N3 in E; try discriminate E.
    rewrite G in E. destruct (mapO (g a) b) as [res|] eqn:R; [|discriminate E]. injection E as <-. eexists _, _. split; [reflexivity|]. apply (ops_svec swap o g); auto.
  Qed.
  Lemma infix_smat f o (swap : bool) g : dget mat_scalar f = Some g -> agree o (if swap then flip g else g) -> dget vec_elemwise f = None -> dget mat_elemwise f = None -> dget vec_scalar f = None ->
    np_infix true f = Some (op_text o, swap) ->
    (forall m l, tmean f [DM m; DL l] = None) -> (forall l i, tmean f [DL l; DZ i] = None) -> (forall m i, tmean f [DM m; DZ i] = None) ->
    (forall l, tmean f [DL l] = None) -> (forall m i j, tmean f [DM m; DZ i; DZ j] = None) -> (forall m i j, tmean f [DL m; DZ i; DZ j] = None) ->
    infix_right f o swap.
  Proof.
    intros G A N1 N2 N3 T K1 K2 K3 K4 K5 K6. split; [exact T|]. intros ds v E F.
    destruct ds as [|[a|a|a|a|a] [|[b|b|b|b|b] [|[c|c|c|c|c] [|? ?]]]]; try discriminate E;
      try (rewrite ?K1, ?K2, ?K3, ?K4, ?K5, ?K6 in E; discriminate E); cbn [tmean] in E; rewrite ?N1, ?N2, ?N3 in E; try discriminate E.
    rewrite G in E. apply rows_inv in E. destruct E as [res [R ->]]. eexists _, _. split; [reflexivity|]. apply (ops_smat swap o g); auto.
  Qed.

  Lemma smem_in x l : smem x l = true -> In x l.
  Proof. induction l as [|y l IH]; [discriminate|]. cbn. intros H. apply orb_true_iff in H. destruct H as [H|H]; [left; symmetry; apply String.eqb_eq, H|right; apply IH, H]. Qed.
  Ltac side := try reflexivity; intros; try reflexivity; cbn; repeat match goal with |- context [if ?b then _ else _] => destruct b end; reflexivity.
  Lemma infix_sum f : smem f f_sum = true -> exists o swap, (o = OAdd \/ o = OSub) /\ infix_right f o swap.
  Proof.
    intros H. apply smem_in in H. unfold f_sum in H. repeat (destruct H as [<-|H]); [..|destruct H].
    - exists OAdd, false. split; [auto|]. apply (infix_vec _ _ tadd); [reflexivity|exact agree_add|side..].
    - exists OAdd, false. split; [auto|]. apply (infix_mat _ _ tadd); [reflexivity|exact agree_add|side..].
    - exists OAdd, false. split; [auto|]. apply (infix_svec _ _ _ tadd); [reflexivity|exact agree_add|side..].
    - exists OAdd, false. split; [auto|]. apply (infix_smat _ _ _ tadd); [reflexivity|exact agree_add|side..].
    - exists OSub, false. split; [auto|]. apply (infix_vec _ _ tsub); [reflexivity|exact agree_sub|side..].
    - exists OSub, false. split; [auto|]. apply (infix_mat _ _ tsub); [reflexivity|exact agree_sub|side..].
    - exists OSub, false. split; [auto|]. apply (infix_svec _ _ _ tsub); [reflexivity|exact agree_sub|side..].
    - exists OSub, false. split; [auto|]. apply (infix_smat _ _ _ tsub); [reflexivity|exact agree_sub|side..].
    - exists OSub, true. split; [auto|]. apply (infix_svec _ _ _ (flip tsub)); [reflexivity|exact agree_sub|side..].
    - exists OSub, true. split; [auto|]. apply (infix_smat _ _ _ (flip tsub)); [reflexivity|exact agree_sub|side..].
  Qed.
  Lemma infix_prod f : smem f f_prod = true -> exists o swap, (o = OMul \/ o = OFloor) /\ infix_right f o swap.
  Proof.
    intros H. apply smem_in in H. unfold f_prod in H. repeat (destruct H as [<-|H]); [..|destruct H].
    - exists OMul, false. split; [auto|]. apply (infix_vec _ _ tmul); [reflexivity|exact agree_mul|side..].
    - exists OMul, false. split; [auto|]. apply (infix_mat _ _ tmul); [reflexivity|exact agree_mul|side..].
    - exists OMul, false. split; [auto|]. apply (infix_svec _ _ _ tmul); [reflexivity|exact agree_mul|side..].
    - exists OMul, false. split; [auto|]. apply (infix_smat _ _ _ tmul); [reflexivity|exact agree_mul|side..].
    - exists OFloor, false. split; [auto|]. apply (infix_vec _ _ pdiv); [reflexivity|exact agree_div|side..].
    - exists OFloor, false. split; [auto|]. apply (infix_mat _ _ pdiv); [reflexivity|exact agree_div|side..].
    - exists OFloor, false. split; [auto|]. apply (infix_svec _ _ _ pdiv); [reflexivity|exact agree_div|side..].
    - exists OFloor, false. split; [auto|]. apply (infix_smat _ _ _ pdiv); [reflexivity|exact agree_div|side..].
    - exists OFloor, true. split; [auto|]. apply (infix_svec _ _ _ (flip pdiv)); [reflexivity|exact agree_div|side..].
    - exists OFloor, true. split; [auto|]. apply (infix_smat _ _ _ (flip pdiv)); [reflexivity|exact agree_div|side..].
  Qed.

  (** ** functions of NumPy *)
  Lemma esum_map l : esum (map EI l) = Some (fold_right Z.add 0 l).
  Proof. induction l as [|z l IH]; [reflexivity|]. cbn. rewrite IH. reflexivity. Qed.
  Lemma eprod_map l : eprod (map EI l) = Some (fold_right Z.mul 1 l).
  Proof. induction l as [|z l IH]; [reflexivity|]. cbn. rewrite IH. reflexivity. Qed.
  Lemma fold_max_comm l : forall x y, Z.max y (fold_right Z.max x l) = Z.max x (fold_right Z.max y l).
  Proof. induction l as [|z l IH]; intros x y; cbn; [lia|]. rewrite Z.max_assoc, (Z.max_comm y z), <- Z.max_assoc, IH. lia. Qed.
  Lemma emax_map x l : emax (map EI (x :: l)) = Some (fold_right Z.max x l).
  Proof.
    revert x. induction l as [|y l IH]; intros x; [reflexivity|]. change (option_map (Z.max x) (emax (map EI (y :: l))) = Some (fold_right Z.max x (y :: l))).
    rewrite IH. cbn [option_map fold_right]. f_equal. apply fold_max_comm.
  Qed.
  Lemma edot_map l r : List.length l = List.length r -> lo <= zdot l r <= hi -> edot W (map EI l) (map EI r) = Some (EI (zdot l r)).
  Proof.
    intros L F. unfold edot. rewrite !map_length, (proj2 (Nat.eqb_eq _ _) L).
    assert (X : zipO (fun x y => match x, y with EI a, EI b => Some (EI (a * b)) | _, _ => None end) (map EI l) (map EI r) =
                Some (map EI (map (fun p => fst p * snd p) (combine l r)))).
    { apply (zipO_rel EI EI EI _ (fun a b => Some (a * b)) (fun _ => True)).
      - intros a b c _ E _. injection E as <-. reflexivity.
      - unfold zipO. clear. induction (combine l r) as [|p q IH]; [reflexivity|]. cbn [mapO map]. rewrite IH. reflexivity.
      - clear. induction (map (fun p => fst p * snd p) (combine l r)); constructor; auto. }
    rewrite X, esum_map. fold (zdot l r). unfold ei. rewrite Wok; auto.
  Qed.
  Definition plain (d : dval) : option string * nval := (None, NA (arr_of d)).
  Definition np1_text (f : string) : string := if String.eqb f "reduce_sum" then "sum" else if String.eqb f "reduce_mul" then "prod" else "max".
  Lemma np1_value f ds v : smem f f_np1 = true -> tmean f ds = Some v -> within lo hi v ->
    exists d, ds = [d] /\ npcall W (np1_text f) [plain d] = Some (NA (arr_of v)).
  Proof.
    intros H E F. apply smem_in in H. unfold f_np1 in H. repeat (destruct H as [<-|H]); [..|destruct H].
    all: destruct ds as [|[a|a|a|a|a] [|[b|b|b|b|b] [|[c|c|c|c|c] [|? ?]]]]; try discriminate E.
    all: try (cbn in E; repeat match type of E with context [if ?b then _ else _] => destruct b end; discriminate E).
    all: eexists; split; [reflexivity|]; cbn [plain arr_of np1_text]; cbn in E.
    - injection E as <-. change (match esum (map EI a) with Some z => option_map (fun e => NA (AS e)) (ei W z) | None => None end = Some (NA (arr_of (DZ (fold_right Z.add 0 a))))).
      rewrite esum_map. unfold ei. rewrite Wok; [reflexivity|exact F].
    - injection E as <-. change (match eprod (map EI a) with Some z => option_map (fun e => NA (AS e)) (ei W z) | None => None end = Some (NA (arr_of (DZ (fold_right Z.mul 1 a))))).
      rewrite eprod_map. unfold ei. rewrite Wok; [reflexivity|exact F].
    - destruct a as [|x r]; [discriminate E|]. injection E as <-. change (option_map (fun z => NA (AS (EI z))) (emax (map EI (x :: r))) = Some (NA (arr_of (DZ (fold_right Z.max x r))))).
      rewrite emax_map. reflexivity.
  Qed.
  Lemma matmul_value ds v : tmean "matrix_vec_mul" ds = Some v -> within lo hi v ->
    exists d1 d2, ds = [d1; d2] /\ npcall W "matmul" [plain d1; plain d2] = Some (NA (arr_of v)).
  Proof.
    intros E F. destruct ds as [|[a|a|a|a|a] [|[b|b|b|b|b] [|[c|c|c|c|c] [|? ?]]]]; try discriminate E;
      try (cbn in E; repeat match type of E with context [if ?b then _ else _] => destruct b end; discriminate E).
    cbn [tmean] in E. change (String.eqb "matrix_vec_mul" "matrix_vec_mul") with true in E. cbv iota in E.
    destruct (negb (Nat.eqb (List.length b) 0) && rectb a && Nat.eqb (num_cols a) (List.length b)) eqn:C; [|discriminate E]. injection E as <-.
    apply andb_true_iff in C. destruct C as [C C2]. apply andb_true_iff in C. destruct C as [_ C1]. apply Nat.eqb_eq in C2.
    eexists _, _. split; [reflexivity|]. cbn [plain arr_of].
    change (option_map (fun l => NA (AV l)) (mapO (fun r => edot W r (map EI b)) (map (map EI) a)) = Some (NA (AV (map EI (map (fun r => zdot r b) a))))).
    rewrite (mapO_rel (map EI) EI _ (fun r => Some (zdot r b)) fine a) with (res := map (fun r => zdot r b) a); [reflexivity| | |exact F].
    - intros r c I G K. injection G as <-. apply edot_map; auto. rewrite (rect_rows a C1 r I). exact C2.
    - clear. induction a as [|r a IH]; [reflexivity|]. cbn [mapO map]. rewrite IH. reflexivity.
  Qed.
  Lemma append_value f ds v : f = "list_append" \/ f = "matrix_append" -> tmean f ds = Some v -> within lo hi v ->
    exists d1 d2 x, ds = [d1; d2] /\ npcall W "expand_dims" [plain d2; axis0] = Some (NA x) /\
      npcall W "concatenate" [(None, NSeq [NA (arr_of d1); NA x]); axis0] = Some (NA (arr_of v)).
  Proof.
    intros H E F. destruct H as [-> | ->].
    all: destruct ds as [|[a|a|a|a|a] [|[b|b|b|b|b] [|[c|c|c|c|c] [|? ?]]]]; try discriminate E.
    all: try (cbn in E; repeat match type of E with context [if ?b then _ else _] => destruct b end; discriminate E).
    - injection E as <-. eexists _, _, _. split; [reflexivity|]. split; [reflexivity|].
      change (Some (NA (AV (map EI a ++ [EI b]))) = Some (NA (AV (map EI (a ++ [b]))))). rewrite map_app. reflexivity.
    - cbn [tmean] in E. change (String.eqb "matrix_append" "matrix_vec_mul") with false in E. change (String.eqb "matrix_append" "matrix_append") with true in E. cbv iota in E.
      destruct (rectb a && Nat.eqb (num_cols a) (List.length b)) eqn:C; [|discriminate E]. apply (rows_inv (Some (a ++ [b]))) in E. destruct E as [m' [X ->]]. injection X as <-.
      apply andb_true_iff in C. destruct C as [C1 C2].
      eexists _, _, _. split; [reflexivity|]. split; [reflexivity|]. cbn [arr_of].
      change ((if Nat.eqb (num_cols (map (map EI) a)) (List.length (map EI b)) then Some (NA (AM (map (map EI) a ++ [map EI b]))) else None) = Some (NA (AM (map (map EI) (a ++ [b]))))).
      replace (num_cols (map (map EI) a)) with (num_cols a) by (destruct a; [reflexivity|cbn; rewrite map_length; reflexivity]).
      rewrite map_length, C2, map_app. reflexivity.
  Qed.
End Values.
