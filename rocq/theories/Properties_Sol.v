(** C59: the reference solutions of LLMLift compute what the benchmark programs compute. *)

From Coq Require Import String List ZArith Bool Lia.
From Verif Require Import Ast RktModel RktProofs DslModel TensProofs DslProofs SolModel SolProofs.
Import ListNotations.
Local Open Scope string_scope.
Local Open Scope Z_scope.

(** ** specification *)

(** Two images of the same size, of at least one row; [P] holds for every two pixels at
    the same place. *)
Definition images (P : Z -> Z -> Prop) (base active : list (list Z)) : Prop :=
  base <> [] /\ exists n, Forall2 (fun r s => zlen r = n /\ Forall2 P r s) base active.

(** A program of benchmarks/blend/cpp, its reference solution, how its stored invariant
    takes the first rows, and the pixels on which program and solution are compared. *)
Record entry : Type := Entry {
  e_name : string;
  e_pixel : list (list Z) -> list (list Z) -> Z -> Z -> res Z;
  e_program : list (list Z) -> list (list Z) -> res (list (list Z));
  e_solution : list (list Z) -> list (list Z) -> res (list (list Z));
  e_rows : list (list Z) -> Z -> list (list Z);
  e_pixels : Z -> Z -> Prop }.

Definition row_slice (m : list (list Z)) (k : Z) : list (list Z) := py_matrix_row_slice m 0 k.

Definition blends : list entry :=
  [Entry "darken_blend_8" darken_blend_8_pixel darken_blend_8 ps_darken_blend_8 upto (fun _ _ => True);
   Entry "lighten_blend_8" lighten_blend_8_pixel lighten_blend_8 ps_lighten_blend_8 upto (fun _ _ => True);
   Entry "linear_burn_8" linear_burn_8_pixel linear_burn_8 ps_linear_burn_8 row_slice (fun _ _ => True);
   Entry "linear_dodge_8" linear_dodge_8_pixel linear_dodge_8 ps_linear_dodge_8 upto (fun _ _ => True);
   Entry "multiply_blend_8" multiply_blend_8_pixel multiply_blend_8 ps_multiply_blend_8 row_slice (fun x y => 0 <= x * y);
   Entry "screen_blend_8" screen_blend_8_pixel screen_blend_8 ps_screen_blend_8 upto (fun x y => 0 <= x * y);
   Entry "color_burn_8" color_burn_8_pixel color_burn_8 ps_color_burn_8 upto (fun x y => x <= 32 /\ 0 < y);
   Entry "color_dodge_8" color_dodge_8_pixel color_dodge_8 ps_color_dodge_8 upto (fun x y => 0 <= x /\ y < 32);
   Entry "overlay_blend_8" overlay_blend_8_pixel overlay_blend_8 ps_overlay_blend_8 upto (fun x _ => x < 16 \/ 128 <= x)].

(** ** proofs *)

(** what the program of the entry puts for two pixels *)
Definition value (nm : string) (x y : Z) : Z :=
  if String.eqb nm "darken_blend_8" then Z.min x y
  else if String.eqb nm "lighten_blend_8" then Z.max x y
  else if String.eqb nm "linear_burn_8" then x + y - 32
  else if String.eqb nm "linear_dodge_8" then x + y
  else if String.eqb nm "multiply_blend_8" then x * y / 32
  else if String.eqb nm "screen_blend_8" then x + y - x * y / 32
  else if String.eqb nm "color_burn_8" then 32 - (32 - x) / y
  else if String.eqb nm "color_dodge_8" then x / (32 - y)
  else if x <? 128 then 2 * x * x / 32 else 2 * x + x - 2 * x * x / 32 - 32.

Lemma entry_pixel e : In e blends -> forall L,
  (forall r p, In r L -> In p r -> e_pixels e (fst p) (snd p)) ->
  forall j k row p, nth_error L j = Some row -> nth_error row k = Some p ->
  e_pixel e (map (map fst) L) (map (map snd) L) (Z.of_nat j) (Z.of_nat k) = Ok (value (e_name e) (fst p) (snd p)).
Proof.
  intros IN L H j k row p N M. specialize (H row p (nth_In _ _ _ N) (nth_In _ _ _ M)).
  pose proof (cell_map fst L j k row p N M) as B. pose proof (cell_map snd L j k row p N M) as A.
  destruct p as [x y]. cbn [fst snd] in *.
  repeat (destruct IN as [<-|IN]); [..|destruct IN]; cbn [e_pixel e_name e_pixels] in *; cbn [value String.eqb Ascii.eqb Bool.eqb];
    unfold darken_blend_8_pixel, lighten_blend_8_pixel, linear_burn_8_pixel, linear_dodge_8_pixel, multiply_blend_8_pixel,
      screen_blend_8_pixel, color_burn_8_pixel, color_dodge_8_pixel, overlay_blend_8_pixel, cdiv; rewrite ?A, ?B; cbn [bindR];
    rewrite ?A, ?B; cbn [bindR Z.eqb]; try reflexivity; unfold value; cbn [String.eqb Ascii.eqb Bool.eqb].
  - rewrite Z.gtb_ltb. destruct (Z.ltb_spec y x); f_equal; lia.
  - destruct (Z.ltb_spec x y); f_equal; lia.
  - now rewrite quot_div by lia.
  - now rewrite quot_div by lia.
  - destruct (Z.eqb_spec y 0); [lia|]. cbn [bindR]. now rewrite quot_div by lia.
  - destruct (Z.eqb_spec y 32); [lia|]. destruct (Z.eqb_spec (32 - y) 0); [lia|]. now rewrite quot_div by lia.
  - rewrite quot_div by nia. cbn [bindR]. rewrite Z.geb_leb. destruct (Z.leb_spec 16 x), (Z.ltb_spec x 128); try lia; reflexivity.
Qed.

Lemma ok_inj {A} (a b : A) : a = b -> @Ok A a = Ok b. Proof. congruence. Qed.

Lemma entry_solution e : In e blends -> forall L,
  (forall r p, In r L -> In p r -> e_pixels e (fst p) (snd p)) ->
  e_solution e (map (map fst) L) (map (map snd) L) = Ok (map (map (fun p => value (e_name e) (fst p) (snd p))) L).
Proof.
  intros IN L H.
  repeat (destruct IN as [<-|IN]); [..|destruct IN]; cbn [e_solution e_name e_pixels] in *.
  - apply zipped2_map. intros r [x y] _ _. unfold py_ite_int, value. cbn. apply ok_inj. rewrite Z.gtb_ltb. destruct (Z.ltb_spec y x); lia.
  - apply zipped2_map. intros r [x y] _ _. unfold py_ite_int, value. cbn. apply ok_inj. destruct (Z.ltb_spec x y); lia.
  - unfold ps_linear_burn_8, py_matrix_elemwise_add.
    rewrite (zipped2_map (fun x y => Ok (x + y)) fst snd (fun p => fst p + snd p)) by reflexivity. cbn [bindR].
    apply (each2_map (fun x => Ok (x - 32))). reflexivity.
  - apply (zipped2_map (fun x y => Ok (x + y))). reflexivity.
  - unfold ps_multiply_blend_8, py_matrix_elemwise_mul.
    rewrite (zipped2_map (fun x y => Ok (x * y)) fst snd (fun p => fst p * snd p)) by reflexivity. cbn [bindR].
    apply (each2_map (fun x => floordiv x 32)). reflexivity.
  - unfold ps_screen_blend_8, py_matrix_elemwise_mul, py_matrix_elemwise_add.
    rewrite (zipped2_map (fun x y => Ok (x + y)) fst snd (fun p => fst p + snd p)) by reflexivity. cbn [bindR].
    rewrite (zipped2_map (fun x y => Ok (x * y)) fst snd (fun p => fst p * snd p)) by reflexivity. cbn [bindR].
    unfold py_matrix_scalar_div.
    rewrite (each2_map (fun x => floordiv x 32) _ (fun p => fst p * snd p / 32)) by reflexivity. cbn [bindR].
    apply (zipped2_map (fun x y => Ok (x - y))). reflexivity.
  - apply zipped2_map. intros r [x y] I J. specialize (H r _ I J). cbn [fst snd] in *. unfold floordiv.
    destruct (Z.eqb_spec y 0); [lia|]. reflexivity.
  - unfold ps_color_dodge_8, py_scalar_matrix_sub.
    rewrite (each2_map (fun x => Ok (32 - x)) snd (fun p => 32 - snd p)) by reflexivity. cbn [bindR].
    unfold py_matrix_elemwise_div.
    rewrite (zipped2_map (fun x y => floordiv x y) fst _ (fun p => fst p / (32 - snd p))).
    + cbn [bindR]. apply zipped2_map. intros r [x y] I J. specialize (H r _ I J). cbn [fst snd] in *.
      unfold py_ite_int. destruct (Z.eqb_spec y 32); [lia|]. reflexivity.
    + intros r [x y] I J. specialize (H r _ I J). cbn [fst snd] in *. unfold floordiv.
      destruct (Z.eqb_spec (32 - y) 0); [lia|]. reflexivity.
  - apply zipped2_map. intros r [x y] I J. cbn [fst snd]. unfold floordiv. cbn [Z.eqb bindR]. unfold py_ite_int, value.
    cbn [String.eqb Ascii.eqb Bool.eqb]. apply ok_inj. rewrite Z.geb_leb. destruct (Z.leb_spec 128 x), (Z.ltb_spec x 128); lia.
Qed.

Lemma entry_program e : In e blends -> forall base active, e_program e base active = blend (e_pixel e base active) base.
Proof. intros IN. repeat (destruct IN as [<-|IN]); [..|destruct IN]; reflexivity. Qed.

Lemma images_paired P base active : images P base active ->
  exists L n, L <> [] /\ base = map (map fst) L /\ active = map (map snd) L /\ Forall (fun r => zlen r = n) L /\
    (forall r p, In r L -> In p r -> P (fst p) (snd p)).
Proof.
  intros [NE (n & F)]. destruct (paired P n base active F) as (L & -> & -> & G & H).
  exists L, n. repeat split; auto. intros ->. now apply NE.
Qed.

(** ** the programs with two images *)
Theorem C59_blend_partial : forall e base active, In e blends -> images (e_pixels e) base active ->
  exists v, e_program e base active = Ok v /\ e_solution e base active = Ok v.
Proof.
  intros e base active IN I. destruct (images_paired _ _ _ I) as (L & n & NE & -> & -> & G & H).
  eexists. split; [|exact (entry_solution e IN L H)].
  rewrite (entry_program e IN). unfold blend. rewrite zlen_map.
  rewrite (blend_rows_is _ fst _ L n (zlen L) NE ltac:(unfold zlen; lia) G (entry_pixel e IN L H)).
  f_equal. f_equal. unfold zlen. now rewrite Nat2Z.id, firstn_all.
Qed.
Print Assumptions C59_blend_partial.

Example C59_blend_example :
  images (fun x y => x <= 32 /\ 0 < y) [[3; 30]; [32; 0]] [[2; 7]; [1; 5]] /\
  color_burn_8 [[3; 30]; [32; 0]] [[2; 7]; [1; 5]] = Ok [[18; 32]; [32; 26]] /\
  ps_color_burn_8 [[3; 30]; [32; 0]] [[2; 7]; [1; 5]] = Ok [[18; 32]; [32; 26]].
Proof.
  split; [|split; reflexivity]. split; [discriminate|]. exists 2.
  repeat constructor; cbn; lia.
Qed.

(** dissolve_blend_8 *)
Lemma dissolve_is base active opacity rand_cons k : 0 <= rand_cons -> images (fun _ _ => True) base active -> 0 <= k <= zlen base ->
  exists v, blend_rows (dissolve_blend_8_pixel base active opacity rand_cons) base k = Ok v /\
    ps_dissolve_blend_8 (upto base k) (upto active k) opacity rand_cons = Ok v.
Proof.
  intros R I K. destruct (images_paired _ _ _ I) as (L & n & NE & -> & -> & G & _). rewrite zlen_map in K.
  set (d := fun p : Z * Z => if opacity - (rand_cons mod 100 + 1) / 100 >=? 0 then snd p else fst p).
  exists (map (map d) (firstn (Z.to_nat k) L)). split.
  - apply (blend_rows_is _ fst d L n k NE K G). intros j c row p N M. unfold dissolve_blend_8_pixel, cmod, cdiv. cbn [Z.eqb bindR].
    rewrite Z.rem_mod_nonneg by lia. pose proof (Z.mod_pos_bound rand_cons 100 ltac:(lia)). rewrite quot_div by lia.
    unfold d. destruct (_ >=? 0); [apply (cell_map snd L j c row p N M) | apply (cell_map fst L j c row p N M)].
  - rewrite !upto_is, !firstn_map by lia. apply zipped2_map. reflexivity.
Qed.

Lemma upto_all {A} (l : list A) : upto l (zlen l) = l.
Proof. rewrite upto_is by (unfold zlen; lia). unfold zlen. now rewrite Nat2Z.id, firstn_all. Qed.
Lemma images_len P base active : images P base active -> zlen active = zlen base.
Proof. intros [_ (n & F)]. unfold zlen. f_equal. induction F; cbn; congruence. Qed.

Theorem C59_dissolve_partial : forall base active opacity rand_cons,
  0 <= rand_cons -> images (fun _ _ => True) base active ->
  exists v, dissolve_blend_8 base active opacity rand_cons = Ok v /\
    ps_dissolve_blend_8 base active opacity rand_cons = Ok v.
Proof.
  intros base active opacity rand_cons R I.
  destruct (dissolve_is base active opacity rand_cons (zlen base) R I ltac:(unfold zlen; lia)) as (v & H1 & H2).
  exists v. split; [exact H1|]. rewrite upto_all, <- (images_len _ _ _ I), upto_all in H2. exact H2.
Qed.
Print Assumptions C59_dissolve_partial.

Example C59_dissolve_example :
  dissolve_blend_8 [[3; 30]] [[2; 7]] 1 199 = Ok [[2; 7]] /\ ps_dissolve_blend_8 [[3; 30]] [[2; 7]] 0 199 = Ok [[3; 30]].
Proof. split; reflexivity. Qed.

(** ** the stored invariants of the outer loops *)

Lemma rows_are e : In e blends -> forall m k, 0 <= k -> e_rows e m k = firstn (Z.to_nat k) m.
Proof.
  assert (S : forall m k, 0 <= k -> row_slice m k = firstn (Z.to_nat k) m).
  { intros m k K. unfold row_slice, py_matrix_row_slice. rewrite from_is, upto_is by lia. reflexivity. }
  intros IN m k K. repeat (destruct IN as [<-|IN]); [..|destruct IN]; cbn [e_rows]; auto using upto_is.
Qed.

Lemma eqb_rows a b : eqb_list (eqb_list Z.eqb) a b = true <-> a = b.
Proof. apply eqb_list_spec. intros x y. apply eqb_list_spec. intros. apply Z.eqb_eq. Qed.

Lemma inv1_iff rows ps base active out k v : 0 <= k <= zlen base -> ps (rows base k) (rows active k) = Ok v ->
  (inv1 rows ps base active out k = Ok true <-> v = out).
Proof.
  intros K H. unfold inv1. rewrite Z.geb_leb. destruct (Z.leb_spec 0 k); [|lia]. destruct (Z.leb_spec k (zlen base)); [|lia].
  cbn [andb]. rewrite H. cbn [bindR]. split.
  - intros [= E]. symmetry. now apply eqb_rows.
  - intros ->. f_equal. now apply eqb_rows.
Qed.
Lemma inv1_range rows ps base active out k : inv1 rows ps base active out k = Ok true -> 0 <= k <= zlen base.
Proof.
  unfold inv1. rewrite Z.geb_leb. destruct (Z.leb_spec 0 k), (Z.leb_spec k (zlen base)); cbn [andb]; try discriminate. lia.
Qed.

Lemma firstn_in {A} (l : list A) n a : In a (firstn n l) -> In a l.
Proof. rewrite <- (firstn_skipn n l) at 2. intros. apply in_or_app. now left. Qed.

(** The invariant holds of [out] and [row] exactly if [out] is what the loop has produced
    when it arrives at its head with [row]: it holds at every visit, it is kept by the
    body, and at the exit it leaves one possible result. *)
Theorem C59_invariants_partial : forall e base active out row,
  In e blends -> e_name e <> "screen_blend_8" -> images (e_pixels e) base active ->
  (inv1 (e_rows e) (e_solution e) base active out row = Ok true <->
   0 <= row <= zlen base /\ blend_rows (e_pixel e base active) base row = Ok out).
Proof.
  intros e base active out k IN _ I. destruct (images_paired _ _ _ I) as (L & n & NE & -> & -> & G & H).
  rewrite zlen_map.
  assert (E : 0 <= k <= zlen L ->
    e_solution e (e_rows e (map (map fst) L) k) (e_rows e (map (map snd) L) k) =
    blend_rows (e_pixel e (map (map fst) L) (map (map snd) L)) (map (map fst) L) k).
  { intros K. rewrite !(rows_are e IN), !firstn_map by lia.
    rewrite (blend_rows_is _ fst _ L n k NE K G (entry_pixel e IN L H)).
    apply (entry_solution e IN). intros r p J. apply (H r p). now apply firstn_in in J. }
  split.
  - intros T. pose proof (inv1_range _ _ _ _ _ _ T) as K'. assert (K : 0 <= k <= zlen L) by (now rewrite zlen_map in K').
    split; [exact K|]. specialize (E K). rewrite (blend_rows_is _ fst _ L n k NE K G (entry_pixel e IN L H)) in *.
    apply (inv1_iff _ _ _ _ out k _ K' E) in T. now rewrite T.
  - intros [K B]. specialize (E K). rewrite B in E. apply (inv1_iff _ _ _ _ out k out); [now rewrite zlen_map | exact E | reflexivity].
Qed.
Print Assumptions C59_invariants_partial.

Example C59_invariants_example :
  blend_rows (multiply_blend_8_pixel [[8; 16]; [4; 32]] [[8; 2]; [8; 31]]) [[8; 16]; [4; 32]] 1 = Ok [[2; 1]] /\
  inv1 row_slice ps_multiply_blend_8 [[8; 16]; [4; 32]] [[8; 2]; [8; 31]] [[2; 1]] 1 = Ok true /\
  inv1 row_slice ps_multiply_blend_8 [[8; 16]; [4; 32]] [[8; 2]; [8; 31]] [[2; 2]] 1 = Ok false.
Proof. repeat split; reflexivity. Qed.

Theorem C59_dissolve_invariant_partial : forall base active out opacity rand_cons row,
  0 <= rand_cons -> images (fun _ _ => True) base active ->
  (inv1_dissolve_blend_8 base active out opacity rand_cons row = Ok true <->
   0 <= row <= zlen base /\ blend_rows (dissolve_blend_8_pixel base active opacity rand_cons) base row = Ok out).
Proof.
  intros base active out opacity rand_cons k R I.
  change (inv1_dissolve_blend_8 base active out opacity rand_cons k)
    with (inv1 upto (fun b a => ps_dissolve_blend_8 b a opacity rand_cons) base active out k).
  split.
  - intros T. pose proof (inv1_range _ _ _ _ _ _ T) as K. split; [exact K|].
    destruct (dissolve_is _ _ opacity _ k R I K) as (v & -> & E). f_equal. eapply inv1_iff in T; eauto.
  - intros [K B]. destruct (dissolve_is _ _ opacity _ k R I K) as (v & B' & E).
    eapply inv1_iff; eauto. congruence.
Qed.
Print Assumptions C59_dissolve_invariant_partial.

Example C59_dissolve_invariant_example :
  inv1_dissolve_blend_8 [[3; 30]; [1; 1]] [[2; 7]; [0; 9]] [[2; 7]] 1 199 1 = Ok true.
Proof. reflexivity. Qed.

(** screen_blend_8: the stored invariant fails at every visit between the first and the last *)
Theorem C59_invariant_refuted : forall base active row,
  images (fun x y => 0 <= x * y) base active -> 1 <= row < zlen base ->
  exists out, blend_rows (screen_blend_8_pixel base active) base row = Ok out /\
    inv1_screen_blend_8 base active out row = Ok false.
Proof.
  intros base active k I K.
  assert (IN : In (Entry "screen_blend_8" screen_blend_8_pixel screen_blend_8 ps_screen_blend_8 upto (fun x y => 0 <= x * y)) blends)
    by (do 5 right; now left).
  destruct (images_paired _ _ _ I) as (L & n & NE & -> & -> & G & H). rewrite zlen_map in K.
  pose proof (blend_rows_is _ fst _ L n k NE ltac:(lia) G (entry_pixel _ IN L H)) as B. cbn [e_pixel e_name] in B.
  rewrite B. eexists. split; [reflexivity|]. unfold inv1_screen_blend_8. rewrite zlen_map, Z.geb_leb.
  destruct (Z.leb_spec 0 k); [|lia]. destruct (Z.leb_spec k (zlen L)); [|lia]. cbn [andb].
  unfold py_matrix_elemwise_add, py_matrix_elemwise_mul.
  rewrite (zipped2_map (fun x y => Ok (x + y)) fst snd (fun p => fst p + snd p)) by reflexivity. cbn [bindR].
  rewrite !upto_is, !firstn_map by lia.
  rewrite (zipped2_map (fun x y => Ok (x * y)) fst snd (fun p => fst p * snd p)) by reflexivity. cbn [bindR].
  unfold py_matrix_scalar_div.
  rewrite (each2_map (fun x => floordiv x 32) _ (fun p => fst p * snd p / 32)) by reflexivity. cbn [bindR].
  destruct L as [|r0 L]; [congruence|]. unfold py_matrix_elemwise_sub.
  destruct (Z.to_nat k) as [|k'] eqn:EK; [lia|]. cbn [firstn map]. rewrite zipped_cons, !zlen_map.
  assert (Q : zlen L =? zlen (firstn k' L) = false).
  { apply Z.eqb_neq. unfold zlen in *. cbn [Datatypes.length] in K. rewrite firstn_length. lia. }
  rewrite Q. cbn [bindR]. f_equal.
Qed.
Print Assumptions C59_invariant_refuted.

Example C59_invariant_example :
  blend_rows (screen_blend_8_pixel [[8; 16]; [4; 32]] [[8; 2]; [8; 31]]) [[8; 16]; [4; 32]] 1 = Ok [[14; 17]] /\
  inv1_screen_blend_8 [[8; 16]; [4; 32]] [[8; 2]; [8; 31]] [[14; 17]] 1 = Ok false.
Proof. split; reflexivity. Qed.

(** ** the programs on vectors *)

(** the functions [integer_exp] and [integer_sqrt] of dsl.py in the place of the stubs that
    the C++ files define *)
Definition dsl_exp (n : Z) : res Z := Ok (py_integer_exp n).

Lemma combined {A B} (l : list A) (r : list B) : zlen l = zlen r -> l = map fst (combine l r) /\ r = map snd (combine l r).
Proof.
  revert r. induction l as [|a l IH]; intros [|b r] E; try (unfold zlen in E; cbn in E; lia); [split; reflexivity|].
  cbn [combine map fst snd]. destruct (IH r) as [<- <-]; [unfold zlen in *; cbn in E; lia|]. auto.
Qed.

(** normal_blend_8 and normal_blend_f *)
Theorem C59_normal_partial : forall base active opacity, zlen base = zlen active ->
  (exists v, normal_blend_8 base active opacity = Ok v /\ ps_normal_blend_8 base active opacity = Ok v) /\
  (exists v, normal_blend_f base active opacity = Ok v /\ ps_normal_blend_f base active opacity = Ok v).
Proof.
  intros base active c E. destruct (combined base active E) as [EB EA]. set (l := combine base active) in *. clearbody l. subst base active.
  split.
  - exists (map (fun p => c * snd p + (32 - c) * fst p) l). split.
    + unfold normal_blend_8. apply (for_push _ _ l); [now rewrite zlen_map|]. intros j p N.
      rewrite (at_map snd l j p N), (at_map fst l j p N). reflexivity.
    + unfold ps_normal_blend_8, py_vec_scalar_mul.
      rewrite (each_map (fun x => Ok (c * x)) snd (fun p => c * snd p)) by reflexivity. cbn [bindR].
      rewrite (each_map (fun x => Ok ((32 - c) * x)) fst (fun p => (32 - c) * fst p)) by reflexivity. cbn [bindR].
      apply (zipped_map (fun x y => Ok (x + y))). reflexivity.
  - exists (map (fun p => c * snd p + (1 - c) * fst p) l). split.
    + unfold normal_blend_f. apply (for_push _ _ l); [now rewrite zlen_map|]. intros j p N.
      rewrite (at_map snd l j p N), (at_map fst l j p N). reflexivity.
    + unfold ps_normal_blend_f, py_vec_scalar_mul.
      rewrite (each_map (fun x => Ok (c * x)) snd (fun p => c * snd p)) by reflexivity. cbn [bindR].
      rewrite (each_map (fun x => Ok ((1 - c) * x)) fst (fun p => (1 - c) * fst p)) by reflexivity. cbn [bindR].
      apply (zipped_map (fun x y => Ok (x + y))). reflexivity.
Qed.
Print Assumptions C59_normal_partial.

Example C59_normal_example :
  normal_blend_8 [1; 2] [3; 5] 20 = Ok [72; 124] /\ ps_normal_blend_8 [1; 2] [3; 5] 20 = Ok [72; 124].
Proof. split; reflexivity. Qed.

Lemma vec_slice_is l n : 0 <= n -> py_vec_slice l 0 n = firstn (Z.to_nat n) l.
Proof. intros N. unfold py_vec_slice. rewrite from_is, upto_is by lia. reflexivity. Qed.

(** the four parts of softmax; the loops run up to [max_pos] *)
Theorem C59_softmax_partial : forall input max_pos,
  0 <= max_pos <= zlen input ->
  (1 <= max_pos -> exists v, softmax_part1 input max_pos = Ok v /\ ps_softmax_part1 input max_pos = Ok v) /\
  (forall max_val, exists v, softmax_part2 dsl_exp input max_pos max_val = Ok v /\
     ps_softmax_part2 input max_pos max_val = Ok v) /\
  (exists v, softmax_part3 input max_pos = Ok v /\ ps_softmax_part3 input max_pos = Ok v) /\
  (forall sum, 0 < sum -> Forall (fun x => 0 <= x) input ->
     exists v, softmax_part4 input max_pos sum = Ok v /\ ps_softmax_part4 input max_pos sum = Ok v).
Proof.
  intros input m M. repeat split.
  - intros M1. unfold ps_softmax_part1. rewrite vec_slice_is, py_max_is by lia. eexists. split; [|reflexivity].
    destruct input as [|x0 r]; [unfold zlen in M; cbn in M; lia|].
    destruct (Z.to_nat m) as [|k] eqn:EM; [lia|]. cbn [firstn]. unfold softmax_part1. change (at_ (x0 :: r) 0) with (Ok x0). cbn [bindR].
    rewrite <- fold_left_max. unfold for_. replace (Z.to_nat (m - 1)) with (Datatypes.length (firstn k r)).
    + apply iter_fold. intros j a t N. apply nth_firstn in N. replace (1 + Z.of_nat j) with (Z.of_nat (S j)) by lia.
      rewrite (at_nth (x0 :: r) (S j) a N). cbn [bindR]. now destruct (a >? t).
    + rewrite firstn_length. unfold zlen in M. cbn in M. lia.
  - intros mv. exists (map (fun x => py_integer_exp (x - mv)) (firstn (Z.to_nat m) input)). split.
    + apply for_push; [symmetry; now apply firstn_zlen|]. intros j a N. apply nth_firstn in N. now rewrite (at_nth _ _ _ N).
    + unfold ps_softmax_part2, py_vec_scalar_sub, py_vec_map. rewrite vec_slice_is by lia.
      rewrite <- (map_id (firstn (Z.to_nat m) input)) at 1.
      rewrite (each_map (fun x => Ok (x - mv)) (fun x => x) (fun x => x - mv)) by reflexivity. cbn [bindR].
      apply (each_map (fun x => Ok (py_integer_exp x))). reflexivity.
  - exists (fold_right Z.add 0 (map (fun x => x) (firstn (Z.to_nat m) input))). split.
    + unfold softmax_part3. rewrite (for_fold _ (fun t a => t + a) (firstn (Z.to_nat m) input)).
      * now rewrite (fold_left_add (fun x => x)).
      * symmetry. now apply firstn_zlen.
      * intros j a t N. apply nth_firstn in N. now rewrite (at_nth _ _ _ N).
    + unfold ps_softmax_part3. rewrite upto_is, py_sum_is, map_id by lia. reflexivity.
  - intros sum S F. exists (map (fun x => x / sum) (firstn (Z.to_nat m) input)). split.
    + apply for_push; [symmetry; now apply firstn_zlen|]. intros j a N. apply nth_firstn in N. rewrite (at_nth _ _ _ N). cbn [bindR].
      rewrite Forall_forall in F. specialize (F a (nth_In _ _ _ N)). unfold cdiv. destruct (Z.eqb_spec sum 0); [lia|].
      now rewrite quot_div.
    + unfold ps_softmax_part4, py_vec_scalar_div. rewrite vec_slice_is by lia. rewrite <- (map_id (firstn (Z.to_nat m) input)) at 1.
      apply each_map. intros x _. unfold floordiv. destruct (Z.eqb_spec sum 0); [lia|]. reflexivity.
Qed.
Print Assumptions C59_softmax_partial.

Example C59_softmax_example :
  softmax_part1 [3; 9; 4; 50] 3 = Ok 9 /\ ps_softmax_part1 [3; 9; 4; 50] 3 = Ok 9 /\
  softmax_part2 dsl_exp [3; 9; 4; 50] 3 1 = Ok [9; 33; 27] /\ ps_softmax_part3 [3; 9; 4; 50] 3 = Ok 16 /\
  softmax_part4 [3; 9; 4; 50] 3 2 = Ok [1; 4; 2].
Proof. repeat split; reflexivity. Qed.

(** the two parts of rmsnorm *)
Theorem C59_rmsnorm_partial : forall input weight,
  (exists v, rmsnorm_part1 input weight = Ok v /\ ps_rmsnorm_part1 input weight = Ok v) /\
  (forall ss, input <> [] -> zlen input = zlen weight -> 0 <= ss ->
     ss / zlen input + 1 = 1 \/ 64 < ss / zlen input + 1 ->
     exists v, forall fuel, (0 < fuel)%nat ->
       rmsnorm_part2 (py_integer_sqrt fuel) input weight ss = Ok v /\ ps_rmsnorm_part2 fuel input weight ss = Ok v).
Proof.
  intros input weight. split.
  - exists (fold_right Z.add 0 (map (fun x => x * x) input)). split.
    + unfold rmsnorm_part1. rewrite (for_fold _ (fun t x => t + x * x) input).
      * now rewrite (fold_left_add (fun x => x * x)).
      * reflexivity.
      * intros j a t N. now rewrite (at_nth _ _ _ N).
    + unfold ps_rmsnorm_part1, py_vec_elemwise_mul. rewrite <- (map_id input) at 1 2.
      rewrite (zipped_map (fun x y => Ok (x * y)) (fun x => x) (fun x => x) (fun x => x * x)) by reflexivity.
      cbn [bindR]. now rewrite py_sum_is.
  - intros ss NE E P Q. assert (L : 0 < zlen input) by (destruct input; [congruence | unfold zlen; cbn; lia]).
    destruct (combined input weight E) as [EI EW]. set (l := combine input weight) in *. clearbody l. subst input weight.
    rewrite !zlen_map in *. exists (map (fun p => 1 * fst p * snd p) l). intros [|fuel] FU; [lia|].
    assert (D1 : zlen l =? 0 = false) by (apply Z.eqb_neq; lia). split.
    + unfold rmsnorm_part2. rewrite zlen_map. apply (for_push _ _ l _ eq_refl). intros j p N. unfold cdiv. rewrite D1. cbn [bindR].
      rewrite quot_div by lia. rewrite sqrt_one by (destruct Q; [right; left | right; right]; auto). cbn [bindR Z.eqb].
      rewrite (at_map fst l j p N), (at_map snd l j p N). reflexivity.
    + unfold ps_rmsnorm_part2, floordiv. rewrite zlen_map, D1. cbn [bindR].
      rewrite sqrt_one by (destruct Q; [right; left | right; right]; auto). cbn [bindR Z.eqb].
      unfold py_vec_scalar_mul. rewrite (each_map (fun x => Ok (1 / 1 * x)) fst (fun p => 1 * fst p)) by reflexivity. cbn [bindR].
      apply (zipped_map (fun x y => Ok (x * y))). reflexivity.
Qed.
Print Assumptions C59_rmsnorm_partial.

Example C59_rmsnorm_example :
  rmsnorm_part1 [3; 4] [0; 0] = Ok 25 /\ rmsnorm_part2 (py_integer_sqrt 1) [3; 4] [5; 6] 200 = Ok [15; 24] /\
  ps_rmsnorm_part2 1 [3; 4] [5; 6] 200 = Ok [15; 24].
Proof. repeat split; reflexivity. Qed.

(** matmul *)
Theorem C59_matmul_partial : forall weight input, input <> [] ->
  Forall (fun r => zlen r = zlen input) weight ->
  exists v, matmul weight input = Ok v /\ ps_matmul weight input = Ok v.
Proof.
  intros weight input NE F. unfold ps_matmul. rewrite py_mvm_is. eexists. split; [|reflexivity].
  assert (L : 1 <= zlen input) by (destruct input; [congruence | unfold zlen; cbn; lia]).
  replace (good_rows weight input) with weight.
  - apply for_push; [reflexivity|]. intros j row N. rewrite Forall_forall in F. specialize (F row (nth_In _ _ _ N)).
    destruct (combined row input F) as [ER EI]. unfold dot. set (l := combine row input) in *.
    rewrite (for_fold _ (fun t p => t + fst p * snd p) l).
    + now rewrite (fold_left_add (fun p => fst p * snd p)).
    + rewrite EI. apply zlen_map.
    + intros k p t M. unfold cell. rewrite (at_nth _ _ _ N). cbn [bindR]. rewrite ER, EI. fold l.
      rewrite (at_map fst l k p M). cbn [bindR]. now rewrite (at_map snd l k p M).
  - induction F as [|r w E F IH]; [reflexivity|]. cbn [good_rows]. rewrite E, Z.eqb_refl.
    destruct (Z.ltb_spec (zlen input) 1); [lia|]. cbn. now rewrite <- IH.
Qed.
Print Assumptions C59_matmul_partial.

Example C59_matmul_example :
  matmul [[1; 2]; [3; 4]; [5; 6]] [7; 8] = Ok [23; 53; 83] /\ ps_matmul [[1; 2]; [3; 4]; [5; 6]] [7; 8] = Ok [23; 53; 83].
Proof. split; reflexivity. Qed.

(** parts 3 and 4 of the transformer *)
Theorem C59_transformer_partial : forall input input2 hidden_dim,
  0 <= hidden_dim <= zlen input ->
  (exists v, transformer_part3 dsl_exp input hidden_dim = Ok v /\ ps_transformer_part3 input hidden_dim = Ok v) /\
  (hidden_dim <= zlen input2 ->
   exists v, transformer_part4 input input2 hidden_dim = Ok v /\ ps_transformer_part4 input input2 hidden_dim = Ok v).
Proof.
  intros input input2 h M. split.
  - set (d := fun x => x * (1 / (1 + py_integer_exp (0 - x)))). exists (map d (firstn (Z.to_nat h) input)). split.
    + apply for_push; [symmetry; now apply firstn_zlen|]. intros j a N. apply nth_firstn in N. rewrite (at_nth _ _ _ N). cbn [bindR].
      unfold dsl_exp, cdiv. cbn [bindR]. pose proof (py_exp_pos (0 - a)).
      destruct (Z.eqb_spec (1 + py_integer_exp (0 - a)) 0); [lia|]. cbn [bindR]. now rewrite quot_div by lia.
    + unfold ps_transformer_part3. rewrite upto_is by lia. set (l := firstn (Z.to_nat h) input). rewrite <- (map_id l) at 1.
      unfold py_scalar_vec_sub. rewrite (each_map (fun x => Ok (0 - x)) (fun x => x) (fun x => 0 - x)) by reflexivity. cbn [bindR].
      unfold py_vec_map. rewrite (each_map (fun x => Ok (py_integer_exp x)) _ (fun x => py_integer_exp (0 - x))) by reflexivity. cbn [bindR].
      unfold py_vec_scalar_add. rewrite (each_map (fun x => Ok (1 + x)) _ (fun x => 1 + py_integer_exp (0 - x))) by reflexivity. cbn [bindR].
      unfold py_scalar_vec_div. rewrite (each_map (fun x => floordiv 1 x) _ (fun x => 1 / (1 + py_integer_exp (0 - x)))).
      * cbn [bindR]. rewrite <- (map_id l) at 1. apply (zipped_map (fun x y => Ok (x * y))). reflexivity.
      * intros x _. pose proof (py_exp_pos (0 - x)). unfold floordiv. destruct (Z.eqb_spec (1 + py_integer_exp (0 - x)) 0); [lia|]. reflexivity.
  - intros M2. unfold ps_transformer_part4. rewrite !vec_slice_is by lia.
    destruct (combined (firstn (Z.to_nat h) input) (firstn (Z.to_nat h) input2)) as [E1 E2]; [rewrite !firstn_zlen; lia|].
    set (l := combine _ _) in *. exists (map (fun p => fst p * snd p) l). split.
    + apply (for_push _ _ l).
      * rewrite <- (zlen_map fst l), <- E1. symmetry. now apply firstn_zlen.
      * intros j p N. pose proof (map_nth_error fst j l N) as N1. pose proof (map_nth_error snd j l N) as N2.
        rewrite <- E1 in N1. rewrite <- E2 in N2. apply nth_firstn in N1. apply nth_firstn in N2.
        now rewrite (at_nth _ _ _ N1), (at_nth _ _ _ N2).
    + rewrite E1, E2. apply (zipped_map (fun x y => Ok (x * y))). reflexivity.
Qed.
Print Assumptions C59_transformer_partial.

Example C59_transformer_example :
  transformer_part4 [1; 2; 3] [4; 5; 6] 2 = Ok [4; 10] /\ ps_transformer_part4 [1; 2; 3] [4; 5; 6] 2 = Ok [4; 10].
Proof. split; reflexivity. Qed.

(** ** where they differ *)

(** one row of one pixel *)
Definition pixel (x : Z) : list (list Z) := [[x]].

Lemma one_pixel p x : blend p (pixel x) = (v <- p 0 0 ;; Ok [[v]]).
Proof.
  unfold blend, blend_rows, pixel. cbn [at_ Z.ltb nth_error bindR]. unfold for_, push.
  change (at_ [[x]] 0) with (Ok [x]). cbn [bindR]. change (Z.to_nat (zlen [[x]] - 0)) with 1%nat. change (Z.to_nat (zlen [x] - 0)) with 1%nat.
  cbn [iter]. destruct (p 0 0); reflexivity.
Qed.
Lemma one_cell x : cell (pixel x) 0 0 = Ok x. Proof. reflexivity. Qed.
Lemma one_zip f x y : py_matrix_selection_two_args (pixel x) (pixel y) f = (v <- f x y ;; Ok [[v]]).
Proof. unfold py_matrix_selection_two_args, pixel. cbn. destruct (f x y); reflexivity. Qed.

(** overlay_blend_8: the solution has the threshold 128, the program 16 *)
Theorem C59_overlay_refuted : forall x y, 16 <= x < 128 ->
  exists v w, overlay_blend_8 (pixel x) (pixel y) = Ok v /\ ps_overlay_blend_8 (pixel x) (pixel y) = Ok w /\ v <> w.
Proof.
  intros x y X. exists [[2 * x + x - 2 * x * x / 32 - 32]], [[2 * x * x / 32]]. repeat split.
  - unfold overlay_blend_8. rewrite one_pixel. unfold overlay_blend_8_pixel. rewrite one_cell. cbn [bindR].
    rewrite Z.geb_leb. destruct (Z.leb_spec 16 x); [|lia]. unfold cdiv. cbn [Z.eqb bindR]. now rewrite quot_div by nia.
  - unfold ps_overlay_blend_8. rewrite one_zip. unfold floordiv. cbn [Z.eqb bindR]. unfold py_ite_int. rewrite Z.geb_leb.
    destruct (Z.leb_spec 128 x); [lia|]. reflexivity.
  - intros E. assert (E' : 2 * x + x - 2 * x * x / 32 - 32 = 2 * x * x / 32) by congruence. clear E.
    pose proof (Z.div_mod (2 * x * x) 32 ltac:(lia)). pose proof (Z.mod_pos_bound (2 * x * x) 32 ltac:(lia)).
    assert (0 <= (x - 12) * (x - 12)) by apply Z.square_nonneg.
    assert (2 * x * x = 2 * ((x - 12) * (x - 12)) + 48 * x - 288) by ring. lia.
Qed.
Print Assumptions C59_overlay_refuted.
Example C59_overlay_example : overlay_blend_8 (pixel 20) (pixel 1) = Ok [[3]] /\ ps_overlay_blend_8 (pixel 20) (pixel 1) = Ok [[25]].
Proof. split; reflexivity. Qed.

(** color_burn_8 and color_dodge_8: the solution divides by zero in the case that the
    program treats separately *)
Theorem C59_burn_refuted : forall x,
  color_burn_8 (pixel x) (pixel 0) = Ok (pixel 32) /\ ps_color_burn_8 (pixel x) (pixel 0) = Err ExValue.
Proof.
  intros x. split.
  - unfold color_burn_8. now rewrite one_pixel.
  - unfold ps_color_burn_8. now rewrite one_zip.
Qed.
Print Assumptions C59_burn_refuted.
Theorem C59_dodge_refuted : forall x,
  color_dodge_8 (pixel x) (pixel 32) = Ok (pixel 32) /\ ps_color_dodge_8 (pixel x) (pixel 32) = Err ExValue.
Proof.
  intros x. split.
  - unfold color_dodge_8. now rewrite one_pixel.
  - reflexivity.
Qed.
Print Assumptions C59_dodge_refuted.
Example C59_burn_example : color_burn_8 (pixel 7) (pixel 1) = Ok (pixel 7) /\ ps_color_burn_8 (pixel 7) (pixel 1) = Ok (pixel 7).
Proof. split; reflexivity. Qed.

(** multiply_blend_8: the program rounds a negative quotient towards zero, the solution down *)
Theorem C59_rounding_refuted : forall x y, x * y < 0 -> (x * y) mod 32 <> 0 ->
  exists v, multiply_blend_8 (pixel x) (pixel y) = Ok (pixel (v + 1)) /\ ps_multiply_blend_8 (pixel x) (pixel y) = Ok (pixel v).
Proof.
  intros x y N M. exists (x * y / 32). split; [|reflexivity].
  unfold multiply_blend_8. rewrite one_pixel. unfold multiply_blend_8_pixel. rewrite !one_cell. cbn [bindR].
  unfold cdiv. cbn [Z.eqb bindR]. unfold pixel. do 3 f_equal.
  rewrite <- (Z.opp_involutive (x * y)) at 1. rewrite Z.quot_opp_l, quot_div by lia. rewrite Z.div_opp_l_nz by lia. lia.
Qed.
Print Assumptions C59_rounding_refuted.
Example C59_rounding_example : multiply_blend_8 (pixel (-3)) (pixel 5) = Ok (pixel 0) /\ ps_multiply_blend_8 (pixel (-3)) (pixel 5) = Ok (pixel (-1)).
Proof. split; reflexivity. Qed.

(** rmsnorm_part2: the solution does not return for small positive means, and it raises for an empty vector *)
Theorem C59_rmsnorm_refuted :
  (forall input weight ss, input <> [] -> 1 <= ss / zlen input <= 63 ->
     forall fuel, ps_rmsnorm_part2 fuel input weight ss = Err ExFuel) /\
  (forall isqrt fuel weight ss, rmsnorm_part2 isqrt [] weight ss = Ok [] /\ ps_rmsnorm_part2 fuel [] weight ss = Err ExValue).
Proof.
  split.
  - intros input weight ss NE M fuel. unfold ps_rmsnorm_part2, floordiv.
    destruct (Z.eqb_spec (zlen input) 0); [destruct input; [congruence | unfold zlen in *; cbn in *; lia]|]. cbn [bindR].
    rewrite sqrt_loops by lia. reflexivity.
  - intros isqrt fuel weight ss. split; reflexivity.
Qed.
Print Assumptions C59_rmsnorm_refuted.
Example C59_rmsnorm_loops : ps_rmsnorm_part2 100 [3; 4] [5; 6] 25 = Err ExFuel.
Proof. reflexivity. Qed.

(** matmul with an empty vector: the program puts one zero per row, the solution nothing *)
Theorem C59_matmul_refuted : forall weight,
  matmul weight [] = Ok (map (fun _ => 0) weight) /\ (forall r w, weight = r :: w -> ps_matmul weight [] = Ok []).
Proof.
  intros weight. split.
  - apply (for_push _ (fun _ => 0) weight _ eq_refl). reflexivity.
  - intros r w ->. unfold ps_matmul. cbn [py_matrix_vec_mul]. destruct r as [|x r]; [reflexivity|].
    destruct (zlen (x :: r) =? zlen (@nil Z)) eqn:E; [|now rewrite orb_true_r].
    apply Z.eqb_eq in E. unfold zlen in E. cbn in E. lia.
Qed.
Print Assumptions C59_matmul_refuted.
Example C59_matmul_empty : matmul [[]; []] [] = Ok [0; 0] /\ ps_matmul [[]; []] [] = Ok [].
Proof. split; reflexivity. Qed.
