(** C60: the loop invariants stored with the reference solutions of LLMLift are exact. *)

From Coq Require Import String List ZArith Bool Lia.
From Verif Require Import Ast RktModel RktProofs DslModel TensProofs DslProofs SolModel SolProofs Properties_Sol SolInvModel.
Import ListNotations.
Local Open Scope string_scope.
Local Open Scope Z_scope.

(** ** specification *)

(** the invariant of the inner loop of a program of [blends], as a function of [base],
    [active], [out], [row_vec], [row] and [col] *)
Definition inner (nm : string) : list (list Z) -> list (list Z) -> list (list Z) -> list Z -> Z -> Z -> res bool :=
  if String.eqb nm "darken_blend_8" then inv2_row_first ps_darken_blend_8 rv_darken_blend_8
  else if String.eqb nm "lighten_blend_8" then inv2_row_first ps_lighten_blend_8 rv_lighten_blend_8
  else if String.eqb nm "linear_burn_8" then inv2_col_first ps_linear_burn_8 rv_linear_burn_8
  else if String.eqb nm "linear_dodge_8" then inv2_row_first ps_linear_dodge_8 rv_linear_dodge_8
  else if String.eqb nm "multiply_blend_8" then inv2_col_first ps_multiply_blend_8 rv_multiply_blend_8
  else if String.eqb nm "screen_blend_8" then inv2_screen_blend_8 ps_screen_blend_8 rv_screen_blend_8
  else if String.eqb nm "color_burn_8" then inv2_row_first ps_color_burn_8 rv_color_burn_8
  else if String.eqb nm "color_dodge_8" then inv2_row_first ps_color_dodge_8 rv_color_dodge_8
  else inv2_row_first ps_overlay_blend_8 rv_overlay_blend_8.

(** the number of columns *)
Definition width (m : list (list Z)) : Z := match m with r :: _ => zlen r | [] => 0 end.

(** ** proofs *)

Lemma andR_true a b : andR a b = Ok true <-> a = Ok true /\ b = Ok true.
Proof. unfold andR. destruct a as [[]|]; cbn [bindR]; split; intuition discriminate. Qed.
Lemma ok_true b : Ok b = Ok true <-> b = true.
Proof. split; [now intros [=] | now intros ->]. Qed.
Lemma same_is a b : same a b = true <-> a = b.
Proof. apply eqb_list_spec. intros. apply Z.eqb_eq. Qed.
Lemma same2_is a b : same2 a b = true <-> a = b.
Proof. apply eqb_rows. Qed.
Lemma geb0 k : (k >=? 0) = true <-> 0 <= k.
Proof. rewrite Z.geb_leb. apply Z.leb_le. Qed.

Lemma inv_list_is i n v st out : (0 <= i <= n -> exists w, v = Ok w /\ st = Ok w) ->
  (inv_list i n v out = Ok true <-> 0 <= i <= n /\ st = Ok out).
Proof.
  intros H. unfold inv_list. rewrite !andR_true, !ok_true, geb0, Z.leb_le. split.
  - intros (A & B & C). destruct (H (conj A B)) as (w & -> & ->). cbn [bindR] in C. rewrite ok_true, same_is in C. subst. auto.
  - intros [[A B] ->]. destruct (H (conj A B)) as (w & -> & [= <-]). cbn [bindR]. rewrite ok_true, same_is. auto.
Qed.
Lemma inv_int_is i n v st out : (0 <= i <= n -> exists w, v = Ok w /\ st = Ok w) ->
  (inv_int i n v out = Ok true <-> 0 <= i <= n /\ st = Ok out).
Proof.
  intros H. unfold inv_int. rewrite !andR_true, !ok_true, geb0, Z.leb_le. split.
  - intros (A & B & C). destruct (H (conj A B)) as (w & -> & ->). cbn [bindR] in C. rewrite ok_true, Z.eqb_eq in C. subst. auto.
  - intros [[A B] ->]. destruct (H (conj A B)) as (w & -> & [= <-]). cbn [bindR]. rewrite ok_true, Z.eqb_eq. auto.
Qed.

(** ** invariants of the inner loops of the image programs *)

Definition row_expr (nm : string) : list Z -> list Z -> res (list Z) :=
  if String.eqb nm "darken_blend_8" then rv_darken_blend_8
  else if String.eqb nm "lighten_blend_8" then rv_lighten_blend_8
  else if String.eqb nm "linear_burn_8" then rv_linear_burn_8
  else if String.eqb nm "linear_dodge_8" then rv_linear_dodge_8
  else if String.eqb nm "multiply_blend_8" then rv_multiply_blend_8
  else if String.eqb nm "screen_blend_8" then rv_screen_blend_8
  else if String.eqb nm "color_burn_8" then rv_color_burn_8
  else if String.eqb nm "color_dodge_8" then rv_color_dodge_8
  else rv_overlay_blend_8.

Lemma row_values e : In e blends ->
  forall l, (forall p, In p l -> e_pixels e (fst p) (snd p)) ->
  row_expr (e_name e) (map fst l) (map snd l) = Ok (map (fun p => value (e_name e) (fst p) (snd p)) l).
Proof.
  intros IN l H.
  repeat (destruct IN as [<-|IN]); [..|destruct IN]; cbn [e_name e_pixels] in *;
    match goal with |- row_expr ?nm _ _ = _ => let r := eval cbv [row_expr String.eqb Ascii.eqb Bool.eqb] in (row_expr nm) in
      change (row_expr nm) with r end.
  - apply zipped_map. intros [x y] _. unfold py_ite_int, value. cbn. apply ok_inj. rewrite Z.gtb_ltb. destruct (Z.ltb_spec y x); lia.
  - apply zipped_map. intros [x y] _. unfold py_ite_int, value. cbn. apply ok_inj. destruct (Z.ltb_spec x y); lia.
  - unfold rv_linear_burn_8, py_vec_elemwise_add.
    rewrite (zipped_map (fun x y => Ok (x + y)) fst snd (fun p => fst p + snd p)) by reflexivity. cbn [bindR].
    apply (each_map (fun x => Ok (x - 32))). reflexivity.
  - apply (zipped_map (fun x y => Ok (x + y))). reflexivity.
  - unfold rv_multiply_blend_8, py_vec_elemwise_mul.
    rewrite (zipped_map (fun x y => Ok (x * y)) fst snd (fun p => fst p * snd p)) by reflexivity. cbn [bindR].
    apply (each_map (fun x => floordiv x 32)). reflexivity.
  - unfold rv_screen_blend_8, py_vec_elemwise_mul, py_vec_elemwise_add.
    rewrite (zipped_map (fun x y => Ok (x + y)) fst snd (fun p => fst p + snd p)) by reflexivity. cbn [bindR].
    rewrite (zipped_map (fun x y => Ok (x * y)) fst snd (fun p => fst p * snd p)) by reflexivity. cbn [bindR].
    unfold py_vec_scalar_div.
    rewrite (each_map (fun x => floordiv x 32) _ (fun p => fst p * snd p / 32)) by reflexivity. cbn [bindR].
    apply (zipped_map (fun x y => Ok (x - y))). reflexivity.
  - apply zipped_map. intros [x y] J. specialize (H _ J). cbn [fst snd] in *. unfold floordiv.
    destruct (Z.eqb_spec y 0); [lia|]. reflexivity.
  - unfold rv_color_dodge_8, py_scalar_vec_sub.
    rewrite (each_map (fun x => Ok (32 - x)) snd (fun p => 32 - snd p)) by reflexivity. cbn [bindR].
    unfold py_vec_elemwise_div.
    rewrite (zipped_map (fun x y => floordiv x y) fst _ (fun p => fst p / (32 - snd p))).
    + cbn [bindR]. apply zipped_map. intros [x y] J. specialize (H _ J). cbn [fst snd] in *.
      unfold py_ite_int. destruct (Z.eqb_spec y 32); [lia|]. reflexivity.
    + intros [x y] J. specialize (H _ J). cbn [fst snd] in *. unfold floordiv.
      destruct (Z.eqb_spec (32 - y) 0); [lia|]. reflexivity.
  - apply zipped_map. intros [x y] J. cbn [fst snd]. unfold floordiv. cbn [Z.eqb bindR]. unfold py_ite_int, value.
    cbn [String.eqb Ascii.eqb Bool.eqb]. apply ok_inj. rewrite Z.geb_leb. destruct (Z.leb_spec 128 x), (Z.ltb_spec x 128); lia.
Qed.

Lemma at_range {A} (l : list A) k a : at_ l k = Ok a -> 0 <= k < zlen l.
Proof.
  unfold at_. destruct (Z.ltb_spec k 0); [discriminate|]. destruct (nth_error l (Z.to_nat k)) eqn:E; [|discriminate]. intros _.
  assert (nth_error l (Z.to_nat k) <> None) as N by congruence. apply nth_error_Some in N. unfold zlen. lia.
Qed.
Lemma at_in {A} (l : list A) k : 0 <= k < zlen l -> exists a, nth_error l (Z.to_nat k) = Some a /\ at_ l k = Ok a.
Proof.
  unfold zlen, at_. intros K. destruct (Z.ltb_spec k 0); [lia|]. destruct (nth_error l (Z.to_nat k)) eqn:E; [eauto|].
  apply nth_error_None in E. lia.
Qed.

(** the two conjuncts about [row_vec] and [out] *)
Section Inner.
  Variables (px : Z -> Z -> res Z) (d : Z * Z -> Z) (L : list (list (Z * Z))) (n : Z).
  Variables (ps : list (list Z) -> list (list Z) -> res (list (list Z))) (rv : list Z -> list Z -> res (list Z)).
  Variables (rows : list (list Z) -> Z -> list (list Z)) (cut : list Z -> Z -> list Z).
  Hypothesis NE : L <> [].
  Hypothesis G : Forall (fun r => zlen r = n) L.
  Hypothesis PX : forall j k row p, nth_error L j = Some row -> nth_error row k = Some p ->
    px (Z.of_nat j) (Z.of_nat k) = Ok (d p).
  Hypothesis PS : forall k, 0 <= k -> ps (rows (map (map fst) L) k) (rows (map (map snd) L) k) =
    Ok (map (map d) (firstn (Z.to_nat k) L)).
  Hypothesis RV : forall r k, In r L -> 0 <= k -> rv (cut (map fst r) k) (cut (map snd r) k) =
    Ok (map d (firstn (Z.to_nat k) r)).

  Lemma out_is_iff out row : 0 <= row <= zlen L ->
    (out_is rows ps (map (map fst) L) (map (map snd) L) out row = Ok true <-> blend_rows px (map (map fst) L) row = Ok out).
  Proof.
    intros K. unfold out_is. rewrite PS by lia. cbn [bindR]. rewrite ok_true, same2_is.
    rewrite (blend_rows_is px fst d L n row NE K G PX). split; [now intros -> | now intros [=]].
  Qed.
  Lemma row_vec_is_range v row col : row_vec_is cut rv (map (map fst) L) (map (map snd) L) v row col = Ok true -> 0 <= row < zlen L.
  Proof.
    unfold row_vec_is. destruct (at_ (map (map fst) L) row) eqn:E; [|discriminate]. intros _. apply at_range in E.
    now rewrite zlen_map in E.
  Qed.
  Lemma row_vec_is_iff v row col : 0 <= row < zlen L -> 0 <= col <= n ->
    (row_vec_is cut rv (map (map fst) L) (map (map snd) L) v row col = Ok true <-> row_prefix px row col = Ok v).
  Proof.
    intros K C. destruct (at_in L row K) as (r & N & A). unfold row_vec_is.
    assert (N' : row = Z.of_nat (Z.to_nat row)) by lia. rewrite N'.
    rewrite (at_map (map fst) L _ r N). cbn [bindR]. rewrite (at_map (map snd) L _ r N). cbn [bindR].
    rewrite RV by (eauto using nth_In; lia). cbn [bindR]. rewrite ok_true, same_is.
    rewrite Forall_forall in G. pose proof (G r (nth_In _ _ _ N)) as E. unfold row_prefix.
    rewrite (for_push _ d (firstn (Z.to_nat col) r)).
    - split; [now intros -> | now intros [=]].
    - symmetry. apply firstn_zlen. lia.
    - intros j p M. apply nth_firstn in M. eapply PX; eauto.
  Qed.
End Inner.

Lemma col_le_iff (L : list (list (Z * Z))) n col : L <> [] -> Forall (fun r => zlen r = n) L ->
col_le (map (map fst) L) col = Ok true <-> col <= n.
Proof.
  intros NE G. unfold col_le. destruct L as [|r L']; [congruence|]. change (at_ (map (map fst) (r :: L')) 0) with (Ok (map fst r)). cbn [bindR].
  rewrite zlen_map, ok_true, Z.leb_le. inversion G; subst. reflexivity.
Qed.
Lemma width_is (L : list (list (Z * Z))) n : L <> [] -> Forall (fun r => zlen r = n) L -> width (map (map fst) L) = n.
Proof. intros NE G. destruct L as [|r L']; [congruence|]. inversion G; subst. apply zlen_map. Qed.

Theorem C60_inner_partial : forall e base active out row_vec row col,
  In e blends -> images (e_pixels e) base active ->
  (inner (e_name e) base active out row_vec row col = Ok true <->
   0 <= row < zlen base /\ 0 <= col <= width base /\
   blend_rows (e_pixel e base active) base row = Ok out /\ row_prefix (e_pixel e base active) row col = Ok row_vec).
Proof.
  intros e base active out row_vec row col IN I. destruct (images_paired _ _ _ I) as (L & n & NE & -> & -> & G & H).
  set (d := fun p : Z * Z => value (e_name e) (fst p) (snd p)).
  pose proof (entry_pixel e IN L H) as PX. rewrite (width_is L n NE G), zlen_map.
  assert (SOL : forall k, e_solution e (map (map fst) (firstn k L)) (map (map snd) (firstn k L)) = Ok (map (map d) (firstn k L))).
  { intros k. apply (entry_solution e IN). intros r p J. apply (H r p). now apply firstn_in in J. }
  assert (ROW : forall r k, In r L -> row_expr (e_name e) (map fst (firstn k r)) (map snd (firstn k r)) = Ok (map d (firstn k r))).
  { intros r k J. apply (row_values e IN). intros p Q. apply (H r p J). now apply firstn_in in Q. }
  assert (UP : forall k, 0 <= k -> e_solution e (upto (map (map fst) L) k) (upto (map (map snd) L) k) = Ok (map (map d) (firstn (Z.to_nat k) L))).
  { intros k K. rewrite !upto_is, !firstn_map by lia. apply SOL. }
  assert (SL : forall k, 0 <= k -> e_solution e (py_matrix_row_slice (map (map fst) L) 0 k) (py_matrix_row_slice (map (map snd) L) 0 k) =
    Ok (map (map d) (firstn (Z.to_nat k) L))).
  { intros k K. unfold py_matrix_row_slice. rewrite !from_is, !upto_is, !firstn_map by lia. apply SOL. }
  assert (RU : forall r k, In r L -> 0 <= k -> row_expr (e_name e) (upto (map fst r) k) (upto (map snd r) k) = Ok (map d (firstn (Z.to_nat k) r))).
  { intros r k J K. rewrite !upto_is, !firstn_map by lia. now apply ROW. }
  assert (RS : forall r k, In r L -> 0 <= k -> row_expr (e_name e) (py_vec_slice (map fst r) 0 k) (py_vec_slice (map snd r) 0 k) =
    Ok (map d (firstn (Z.to_nat k) r))).
  { intros r k J K. rewrite !vec_slice_is, !firstn_map by lia. now apply ROW. }
  pose proof (col_le_iff L n col NE G) as CL. pose proof (zlen_map (map (@fst Z Z)) L) as ZB.
  set (base := map (map fst) L) in *. set (active := map (map snd) L) in *.
  assert (RF : inv2_row_first (e_solution e) (row_expr (e_name e)) base active out row_vec row col = Ok true <->
    0 <= row < zlen L /\ 0 <= col <= n /\ blend_rows (e_pixel e base active) base row = Ok out /\
    row_prefix (e_pixel e base active) row col = Ok row_vec).
  { unfold inv2_row_first. rewrite !andR_true, !ok_true, !geb0, Z.ltb_lt. rewrite ZB, CL.
    split.
    - intros (A & B & C & D & E & F). apply (row_vec_is_iff _ d L n _ _ G PX RU) in E; [|lia..].
      apply (out_is_iff _ d L n _ _ NE G PX UP) in F; [|lia]. auto.
    - intros ([A B] & [C D] & F & E). repeat split; auto.
      + apply (row_vec_is_iff _ d L n _ _ G PX RU); [lia..|exact E].
      + apply (out_is_iff _ d L n _ _ NE G PX UP); [lia|exact F]. }
  assert (CF : inv2_col_first (e_solution e) (row_expr (e_name e)) base active out row_vec row col = Ok true <->
    0 <= row < zlen L /\ 0 <= col <= n /\ blend_rows (e_pixel e base active) base row = Ok out /\
    row_prefix (e_pixel e base active) row col = Ok row_vec).
  { unfold inv2_col_first. rewrite !andR_true, !ok_true, !geb0, Z.ltb_lt. rewrite ZB, CL.
    split.
    - intros (C & D & A & B & F & E). apply (row_vec_is_iff _ d L n _ _ G PX RS) in E; [|lia..].
      apply (out_is_iff _ d L n _ _ NE G PX SL) in F; [|lia]. auto.
    - intros ([A B] & [C D] & F & E). repeat split; auto.
      + apply (out_is_iff _ d L n _ _ NE G PX SL); [lia|exact F].
      + apply (row_vec_is_iff _ d L n _ _ G PX RS); [lia..|exact E]. }
  assert (SC : inv2_screen_blend_8 (e_solution e) (row_expr (e_name e)) base active out row_vec row col = Ok true <->
    0 <= row < zlen L /\ 0 <= col <= n /\ blend_rows (e_pixel e base active) base row = Ok out /\
    row_prefix (e_pixel e base active) row col = Ok row_vec).
  { unfold inv2_screen_blend_8. rewrite !andR_true, !ok_true, !geb0, Z.leb_le. rewrite ZB, CL.
    split.
    - intros (C & D & A & B & F & E). pose proof (row_vec_is_range L _ _ _ _ _ E) as K.
      apply (row_vec_is_iff _ d L n _ _ G PX RU) in E; [|lia..].
      apply (out_is_iff _ d L n _ _ NE G PX UP) in F; [|lia]. repeat split; auto; lia.
    - intros ([A B] & [C D] & F & E). repeat split; auto; [lia|..].
      + apply (out_is_iff _ d L n _ _ NE G PX UP); [lia|exact F].
      + apply (row_vec_is_iff _ d L n _ _ G PX RU); [lia..|exact E]. }
  clear - IN RF CF SC. unfold inner.
  repeat (destruct IN as [<-|IN]); [..|destruct IN]; cbn [e_name e_solution] in *;
    (exact RF || exact CF || exact SC).
Qed.
Print Assumptions C60_inner_partial.

Example C60_inner_example :
  row_prefix (screen_blend_8_pixel [[8; 16]; [4; 32]] [[8; 2]; [8; 31]]) 1 1 = Ok [11] /\
  inner "screen_blend_8" [[8; 16]; [4; 32]] [[8; 2]; [8; 31]] [[14; 17]] [11] 1 1 = Ok true /\
  inner "screen_blend_8" [[8; 16]; [4; 32]] [[8; 2]; [8; 31]] [[14; 17]] [12] 1 1 = Ok false.
Proof. repeat split; reflexivity. Qed.

(** dissolve_blend_8 *)
Theorem C60_dissolve_inner_partial : forall base active opacity rand_cons out row_vec row col,
  0 <= rand_cons -> images (fun _ _ => True) base active ->
  (inv2_row_first (fun b a => ps_dissolve_blend_8 b a opacity rand_cons) (rv_dissolve_blend_8 opacity rand_cons)
     base active out row_vec row col = Ok true <->
   0 <= row < zlen base /\ 0 <= col <= width base /\
   blend_rows (dissolve_blend_8_pixel base active opacity rand_cons) base row = Ok out /\
   row_prefix (dissolve_blend_8_pixel base active opacity rand_cons) row col = Ok row_vec).
Proof.
  intros base active opacity rand_cons out row_vec row col R I.
  destruct (images_paired _ _ _ I) as (L & n & NE & -> & -> & G & _). rewrite (width_is L n NE G), zlen_map.
  set (d := fun p : Z * Z => if opacity - (rand_cons mod 100 + 1) / 100 >=? 0 then snd p else fst p).
  pose proof (col_le_iff L n col NE G) as CL. pose proof (zlen_map (map (@fst Z Z)) L) as ZB.
  set (base := map (map fst) L) in *. set (active := map (map snd) L) in *.
  assert (PX : forall j k row p, nth_error L j = Some row -> nth_error row k = Some p ->
    dissolve_blend_8_pixel base active opacity rand_cons (Z.of_nat j) (Z.of_nat k) = Ok (d p)).
  { intros j c r p N M. unfold dissolve_blend_8_pixel, cmod, cdiv. cbn [Z.eqb bindR].
    rewrite Z.rem_mod_nonneg by lia. pose proof (Z.mod_pos_bound rand_cons 100 ltac:(lia)). rewrite quot_div by lia.
    unfold d. destruct (_ >=? 0); [apply (cell_map snd L j c r p N M) | apply (cell_map fst L j c r p N M)]. }
  assert (UP : forall k, 0 <= k -> ps_dissolve_blend_8 (upto base k) (upto active k) opacity rand_cons = Ok (map (map d) (firstn (Z.to_nat k) L))).
  { intros k K. unfold base, active. rewrite !upto_is, !firstn_map by lia. apply zipped2_map. reflexivity. }
  assert (RU : forall r k, In r L -> 0 <= k ->
    rv_dissolve_blend_8 opacity rand_cons (upto (map fst r) k) (upto (map snd r) k) = Ok (map d (firstn (Z.to_nat k) r))).
  { intros r k _ K. rewrite !upto_is, !firstn_map by lia. apply zipped_map. reflexivity. }
  unfold inv2_row_first. rewrite !andR_true, !ok_true, !geb0, Z.ltb_lt, ZB, CL. split.
  - intros (A & B & C & D & E & F). apply (row_vec_is_iff _ d L n _ _ G PX RU) in E; [|lia..].
    apply (out_is_iff _ d L n (fun b a => ps_dissolve_blend_8 b a opacity rand_cons) _ NE G PX UP) in F; [|lia]. auto.
  - intros ([A B] & [C D] & F & E). repeat split; auto.
    + apply (row_vec_is_iff _ d L n _ _ G PX RU); [lia..|exact E].
    + apply (out_is_iff _ d L n (fun b a => ps_dissolve_blend_8 b a opacity rand_cons) _ NE G PX UP); [lia|exact F].
Qed.
Print Assumptions C60_dissolve_inner_partial.
Example C60_dissolve_inner_example :
  inv2_row_first (fun b a => ps_dissolve_blend_8 b a 1 199) (rv_dissolve_blend_8 1 199) [[3; 30]; [1; 1]] [[2; 7]; [0; 9]]
    [[2; 7]] [0] 1 1 = Ok true.
Proof. reflexivity. Qed.

(** ** invariants of the programs on vectors *)

(** the states are those of the programs: the programs return the state at the exit *)
Theorem C60_states : forall base active input weight m isqrt opacity ss,
  normal_blend_8 base active opacity = normal_blend_8_at base active opacity (zlen base) /\
  normal_blend_f base active opacity = normal_blend_f_at base active opacity (zlen base) /\
  rmsnorm_part1 input weight = rmsnorm_part1_at input (zlen input) /\
  rmsnorm_part2 isqrt input weight ss = rmsnorm_part2_at isqrt input weight ss (zlen input) /\
  matmul m input = matmul_at m input (zlen m).
Proof. intros. repeat split; reflexivity. Qed.
Print Assumptions C60_states.

Theorem C60_normal_partial : forall base active opacity i out, zlen base = zlen active ->
  (inv_normal_blend_8 base active i opacity out = Ok true <->
   0 <= i <= zlen base /\ normal_blend_8_at base active opacity i = Ok out) /\
  (inv_normal_blend_f base active i opacity out = Ok true <->
   0 <= i <= zlen base /\ normal_blend_f_at base active opacity i = Ok out).
Proof.
  intros base active c i out E. destruct (combined base active E) as [EB EA]. set (l := combine base active) in *. clearbody l. subst base active.
  split; apply inv_list_is; intros K; rewrite zlen_map in K.
  - exists (map (fun p => c * snd p + (32 - c) * fst p) (firstn (Z.to_nat i) l)). split.
    + rewrite !upto_is, !firstn_map by lia. unfold py_vec_scalar_mul.
      rewrite (each_map (fun x => Ok (c * x)) snd (fun p => c * snd p)) by reflexivity. cbn [bindR].
      rewrite (each_map (fun x => Ok ((32 - c) * x)) fst (fun p => (32 - c) * fst p)) by reflexivity. cbn [bindR].
      apply (zipped_map (fun x y => Ok (x + y))). reflexivity.
    + apply for_push; [symmetry; now apply firstn_zlen|]. intros j p N. apply nth_firstn in N.
      rewrite (at_map snd l j p N), (at_map fst l j p N). reflexivity.
  - exists (map (fun p => c * snd p + (1 - c) * fst p) (firstn (Z.to_nat i) l)). split.
    + rewrite !upto_is, !firstn_map by lia. unfold py_vec_scalar_mul.
      rewrite (each_map (fun x => Ok (c * x)) snd (fun p => c * snd p)) by reflexivity. cbn [bindR].
      rewrite (each_map (fun x => Ok ((1 - c) * x)) fst (fun p => (1 - c) * fst p)) by reflexivity. cbn [bindR].
      apply (zipped_map (fun x y => Ok (x + y))). reflexivity.
    + apply for_push; [symmetry; now apply firstn_zlen|]. intros j p N. apply nth_firstn in N.
      rewrite (at_map snd l j p N), (at_map fst l j p N). reflexivity.
Qed.
Print Assumptions C60_normal_partial.
Example C60_normal_example :
  normal_blend_8_at [1; 2] [3; 5] 20 1 = Ok [72] /\ inv_normal_blend_8 [1; 2] [3; 5] 1 20 [72] = Ok true.
Proof. split; reflexivity. Qed.

(** softmax: a program that is given [i] as the bound returns the state after [i] iterations *)
Theorem C60_softmax_partial : forall input max_pos i, max_pos <= zlen input ->
  (forall mv, 1 <= i ->
    (inv_softmax_part1 i input max_pos mv = Ok true <-> i <= max_pos /\ softmax_part1 input i = Ok mv)) /\
  (forall mv out, inv_softmax_part2 i input max_pos mv out = Ok true <->
    0 <= i <= max_pos /\ softmax_part2 dsl_exp input i mv = Ok out) /\
  (forall sum, inv_softmax_part3 i max_pos input sum = Ok true <-> 0 <= i <= max_pos /\ softmax_part3 input i = Ok sum) /\
  (forall sum out, 0 < sum -> Forall (fun x => 0 <= x) input ->
    (inv_softmax_part4 i max_pos out sum input = Ok true <-> 0 <= i <= max_pos /\ softmax_part4 input i sum = Ok out)).
Proof.
  intros input m i M.
  assert (P : 0 <= i <= m -> 0 <= i <= zlen input) by lia.
  split; [|split; [|split]].
  - intros mv I1. transitivity (0 <= i <= m /\ softmax_part1 input i = Ok mv); [|split; intros [? ?]; split; auto; lia].
    apply inv_int_is. intros K. destruct (C59_softmax_partial input i (P K)) as (H & _). destruct (H I1) as (v & ? & Q). exists v. now split.
  - intros mv out. apply inv_list_is. intros K. destruct (C59_softmax_partial input i (P K)) as (_ & H & _).
    destruct (H mv) as (v & ? & Q). exists v. now split.
  - intros sum. apply inv_int_is. intros K. destruct (C59_softmax_partial input i (P K)) as (_ & _ & H & _).
    destruct H as (v & ? & Q). exists v. now split.
  - intros sum out S F. apply inv_list_is. intros K. destruct (C59_softmax_partial input i (P K)) as (_ & _ & _ & H).
    destruct (H sum S F) as (v & ? & Q). exists v. now split.
Qed.
Print Assumptions C60_softmax_partial.
Example C60_softmax_example :
  inv_softmax_part1 2 [3; 9; 40; 50] 3 9 = Ok true /\ softmax_part1 [3; 9; 40; 50] 2 = Ok 9 /\
  inv_softmax_part4 2 3 [1; 4] 2 [3; 9; 40; 50] = Ok true.
Proof. repeat split; reflexivity. Qed.

Theorem C60_rmsnorm_partial : forall input weight i,
  (forall ss, inv_rmsnorm_part1 i input ss weight = Ok true <-> 0 <= i <= zlen input /\ rmsnorm_part1_at input i = Ok ss) /\
  (forall ss out fuel, input <> [] -> zlen input = zlen weight -> 0 <= ss -> (0 < fuel)%nat ->
     ss / zlen input + 1 = 1 \/ 64 < ss / zlen input + 1 ->
     (inv_rmsnorm_part2 fuel i input out ss weight = Ok true <->
      0 <= i <= zlen input /\ rmsnorm_part2_at (py_integer_sqrt fuel) input weight ss i = Ok out)).
Proof.
  intros input weight i. split.
  - intros ss. apply inv_int_is. intros K. exists (fold_right Z.add 0 (map (fun x => x * x) (firstn (Z.to_nat i) input))). split.
    + rewrite upto_is by lia. set (l := firstn (Z.to_nat i) input). unfold py_vec_elemwise_mul. rewrite <- (map_id l) at 1 2.
      rewrite (zipped_map (fun x y => Ok (x * y)) (fun x => x) (fun x => x) (fun x => x * x)) by reflexivity.
      cbn [bindR]. now rewrite py_sum_is.
    + unfold rmsnorm_part1_at. rewrite (for_fold _ (fun t x => t + x * x) (firstn (Z.to_nat i) input)).
      * now rewrite (fold_left_add (fun x => x * x)).
      * symmetry. now apply firstn_zlen.
      * intros j a t N. apply nth_firstn in N. now rewrite (at_nth _ _ _ N).
  - intros ss out [|fuel] NE E P FU Q; [lia|]. apply inv_list_is. intros K.
    assert (L : 0 < zlen input) by (destruct input; [congruence | unfold zlen; cbn; lia]).
    destruct (combined input weight E) as [EI EW]. set (l := combine input weight) in *. clearbody l. subst input weight.
    rewrite !zlen_map in *. exists (map (fun p => 1 * fst p * snd p) (firstn (Z.to_nat i) l)).
    assert (D1 : zlen l =? 0 = false) by (apply Z.eqb_neq; lia). split.
    + unfold floordiv. rewrite D1. cbn [bindR].
      rewrite sqrt_one by (destruct Q; [right; left | right; right]; auto). cbn [bindR Z.eqb].
      rewrite !upto_is, !firstn_map by lia.
      unfold py_vec_scalar_mul. rewrite (each_map (fun x => Ok (1 / 1 * x)) fst (fun p => 1 * fst p)) by reflexivity. cbn [bindR].
      apply (zipped_map (fun x y => Ok (x * y))). reflexivity.
    + unfold rmsnorm_part2_at. rewrite zlen_map. apply for_push; [symmetry; now apply firstn_zlen|].
      intros j p N. apply nth_firstn in N. unfold cdiv. rewrite D1. cbn [bindR].
      rewrite quot_div by lia. rewrite sqrt_one by (destruct Q; [right; left | right; right]; auto). cbn [bindR Z.eqb].
      rewrite (at_map fst l j p N), (at_map snd l j p N). reflexivity.
Qed.
Print Assumptions C60_rmsnorm_partial.
Example C60_rmsnorm_example :
  inv_rmsnorm_part1 1 [3; 4] 9 [] = Ok true /\ inv_rmsnorm_part2 1 1 [3; 4] [15] 200 [5; 6] = Ok true.
Proof. split; reflexivity. Qed.

Lemma good_all m x : 1 <= zlen x -> Forall (fun r => zlen r = zlen x) m -> good_rows m x = m.
Proof.
  intros L F. induction F as [|r w E F IH]; [reflexivity|]. cbn [good_rows]. rewrite E, Z.eqb_refl.
  destruct (Z.ltb_spec (zlen x) 1); [lia|]. cbn. now rewrite IH.
Qed.

Lemma curr_is weight input j row k : nth_error weight j = Some row -> zlen row = zlen input -> 0 <= k <= zlen input ->
  matmul_curr weight input (Z.of_nat j) k =
  Ok (fold_right Z.add 0 (map (fun p => fst p * snd p) (firstn (Z.to_nat k) (combine row input)))).
Proof.
  intros N E K. destruct (combined row input E) as [ER EI]. set (l := combine row input) in *. unfold matmul_curr.
  rewrite (for_fold _ (fun t p => t + fst p * snd p) (firstn (Z.to_nat k) l)).
  - now rewrite (fold_left_add (fun p => fst p * snd p)).
  - symmetry. apply firstn_zlen. now rewrite <- (zlen_map snd l), <- EI.
  - intros c p t M. apply nth_firstn in M. unfold cell. rewrite (at_nth _ _ _ N). cbn [bindR]. rewrite ER, EI. fold l.
    rewrite (at_map fst l c p M). cbn [bindR]. now rewrite (at_map snd l c p M).
Qed.

Lemma output_is weight input row : input <> [] -> Forall (fun r => zlen r = zlen input) weight -> 0 <= row <= zlen weight ->
  exists v, py_matrix_vec_mul (py_matrix_row_slice weight 0 row) input = Ok v /\ matmul_at weight input row = Ok v.
Proof.
  intros NE F K. assert (L : 1 <= zlen input) by (destruct input; [congruence | unfold zlen; cbn; lia]).
  unfold py_matrix_row_slice. rewrite from_is, upto_is, py_mvm_is by lia. cbn [Z.to_nat skipn].
  rewrite good_all; [|exact L|].
  - eexists. split; [reflexivity|]. apply for_push; [symmetry; now apply firstn_zlen|]. intros j r N. apply nth_firstn in N.
    rewrite Forall_forall in F. pose proof (F r (nth_In _ _ _ N)) as E. rewrite (curr_is weight input j r _ N E) by lia.
    unfold dot. rewrite firstn_all2; [reflexivity|]. rewrite combine_length. unfold zlen. lia.
  - rewrite Forall_forall in *. intros r J. apply F. now apply firstn_in in J.
Qed.

Theorem C60_matmul_partial : forall weight input, input <> [] -> Forall (fun r => zlen r = zlen input) weight ->
  (forall row output, inv1_matmul input output row weight = Ok true <->
     0 <= row <= zlen weight /\ matmul_at weight input row = Ok output) /\
  (forall row col curr output, inv2_matmul col curr input output row weight = Ok true <->
     0 <= row < zlen weight /\ 0 <= col <= zlen input /\ matmul_at weight input row = Ok output /\
     matmul_curr weight input row col = Ok curr).
Proof.
  intros weight input NE F. split.
  - intros row output. unfold inv1_matmul. rewrite andR_true, ok_true, andb_true_iff, !Z.leb_le. split.
    + intros [K H]. destruct (output_is weight input row NE F K) as (v & E1 & E2). rewrite E1 in H. cbn [bindR] in H.
      rewrite ok_true, same_is in H. subst. auto.
    + intros [K H]. destruct (output_is weight input row NE F K) as (v & E1 & E2). rewrite E1. cbn [bindR].
      rewrite ok_true, same_is. split; [exact K | congruence].
  - intros row col curr output. unfold inv2_matmul. rewrite !andR_true, !ok_true, !andb_true_iff, !Z.leb_le, Z.ltb_lt.
    assert (Q : 0 <= row < zlen weight -> 0 <= col <= zlen input ->
      ((w <- at_ weight row ;; p <- py_vec_elemwise_mul (py_vec_slice w 0 col) (py_vec_slice input 0 col) ;;
        Ok (curr =? py_reduce_sum p)) = Ok true <-> matmul_curr weight input row col = Ok curr)).
    { intros K C. destruct (at_in weight row K) as (r & N & A). rewrite A. cbn [bindR].
      rewrite Forall_forall in F. pose proof (F r (nth_In _ _ _ N)) as E.
      replace row with (Z.of_nat (Z.to_nat row)) at 1 by lia. rewrite (curr_is weight input _ r col N E C).
      rewrite !vec_slice_is by lia. destruct (combined r input E) as [ER EI]. set (l := combine r input) in *.
      rewrite ER, EI at 1. rewrite !firstn_map. unfold py_vec_elemwise_mul.
      rewrite (zipped_map (fun x y => Ok (x * y)) fst snd (fun p => fst p * snd p)) by reflexivity. cbn [bindR].
      rewrite py_sum_is, ok_true, Z.eqb_eq. split; [now intros -> | now intros [=]]. }
    split.
    + intros (K & C & H & G). apply (Q K C) in G. destruct (output_is weight input row NE F ltac:(lia)) as (v & E1 & E2).
      rewrite E1 in H. cbn [bindR] in H. rewrite ok_true, same_is in H. subst. auto.
    + intros (K & C & H & G). apply (Q K C) in G. destruct (output_is weight input row NE F ltac:(lia)) as (v & E1 & E2).
      rewrite E1. cbn [bindR]. rewrite ok_true, same_is. repeat split; try lia; auto. congruence.
Qed.
Print Assumptions C60_matmul_partial.
Example C60_matmul_example :
  inv1_matmul [7; 8] [23] 1 [[1; 2]; [3; 4]] = Ok true /\ inv2_matmul 1 21 [7; 8] [23] 1 [[1; 2]; [3; 4]] = Ok true.
Proof. split; reflexivity. Qed.

Theorem C60_transformer_partial : forall input1 input2 hidden_dim i, hidden_dim <= zlen input1 ->
  (forall out, inv_transformer_part3 hidden_dim i input1 out = Ok true <->
     0 <= i <= hidden_dim /\ transformer_part3 dsl_exp input1 i = Ok out) /\
  (forall out, hidden_dim <= zlen input2 ->
     (inv_transformer_part4 hidden_dim i input1 input2 out = Ok true <->
      0 <= i <= hidden_dim /\ transformer_part4 input1 input2 i = Ok out)).
Proof.
  intros input1 input2 h i M. split.
  - intros out. apply inv_list_is. intros K. destruct (C59_transformer_partial input1 input2 i ltac:(lia)) as [(v & H1 & H2) _].
    exists v. split; [|exact H1]. rewrite <- H2. unfold ps_transformer_part3. rewrite vec_slice_is, upto_is by lia. reflexivity.
  - intros out M2. apply inv_list_is. intros K. destruct (C59_transformer_partial input1 input2 i ltac:(lia)) as [_ H].
    destruct (H ltac:(lia)) as (v & H1 & H2). exists v. split; [|exact H1]. rewrite <- H2. unfold ps_transformer_part4.
    rewrite !vec_slice_is by lia.
    destruct (combined (firstn (Z.to_nat i) input1) (firstn (Z.to_nat i) input2)) as [E1 E2]; [rewrite !firstn_zlen; lia|].
    set (l := combine _ _) in *. rewrite E1, E2. unfold py_vec_elemwise_mul.
    rewrite (zipped_map (fun x y => Ok (x * y)) snd fst (fun p => snd p * fst p)) by reflexivity.
    rewrite (zipped_map (fun x y => Ok (x * y)) fst snd (fun p => fst p * snd p)) by reflexivity.
    f_equal. apply map_ext. intros. lia.
Qed.
Print Assumptions C60_transformer_partial.
Example C60_transformer_example :
  inv_transformer_part4 2 1 [1; 2; 3] [4; 5; 6] [4] = Ok true /\ transformer_part4 [1; 2; 3] [4; 5; 6] 1 = Ok [4].
Proof. split; reflexivity. Qed.

(** ** where an invariant fails *)

(** softmax_part1 arrives with [i = 1] at the head of the loop for every [max_pos]; without
    a first position the invariant is false there *)
Theorem C60_entry_refuted : forall x r max_pos, max_pos < 1 ->
  softmax_part1 (x :: r) max_pos = Ok x /\ inv_softmax_part1 1 (x :: r) max_pos x = Ok false.
Proof.
  intros x r m M. split.
  - unfold softmax_part1. change (at_ (x :: r) 0) with (Ok x). cbn [bindR]. unfold for_.
    replace (Z.to_nat (m - 1)) with 0%nat by lia. reflexivity.
  - unfold inv_softmax_part1, inv_int, andR. cbn [bindR]. destruct (Z.leb_spec 1 m); [lia|]. reflexivity.
Qed.
Print Assumptions C60_entry_refuted.
Example C60_entry_example : inv_softmax_part1 1 [5; 6] 0 5 = Ok false.
Proof. reflexivity. Qed.
