(** Proofs about the Python definitions of the operators. *)

From Coq Require Import String List ZArith Bool Lia.
From Verif Require Import Ast Semantics RktModel RktProofs UtilModel ObjModel TensModel LibSem TensProofs DslModel.
Import ListNotations.
Local Open Scope string_scope.
Local Open Scope Z_scope.

Lemma zipped_cons {A B C} (f : A -> B -> res C) a x b y :
  zipped f (a :: x) (b :: y) =
  if zlen x =? zlen y then c <- f a b ;; r <- zipped f x y ;; Ok (c :: r) else Ok [].
Proof. cbn [zipped]. rewrite lt1_cons, zlen_cons_eqb. destruct (zlen x =? zlen y); reflexivity. Qed.

Lemma zipped_nil {A B C} (f : A -> B -> res C) y : zipped f [] y = Ok [].
Proof. reflexivity. Qed.
Lemma zipped_nil_r {A B C} (f : A -> B -> res C) a x : zipped f (a :: x) [] = Ok [].
Proof. cbn [zipped]. destruct (zlen (a :: x) =? zlen (@nil B)) eqn:E; [|now rewrite orb_true_r].
  apply Z.eqb_eq in E. unfold zlen in E. simpl in E. lia. Qed.

(** the two schemes as relations between elements *)
Lemma zipped_total {A B C} (f : A -> B -> res C) : forall x y,
  (forall a b, In (a, b) (combine x y) -> exists c, f a b = Ok c) -> exists v, zipped f x y = Ok v.
Proof.
  induction x as [|a x IH]; intros [|b y] H; rewrite ?zipped_nil, ?zipped_nil_r; try (eexists; reflexivity).
  rewrite zipped_cons. destruct (zlen x =? zlen y); [|eexists; reflexivity].
  destruct (H a b) as (c & ->); [now left|]. destruct (IH y) as (v & ->); [intros; apply H; now right|].
  eexists; reflexivity.
Qed.

Lemma each_total {A B} (f : A -> res B) : forall x,
  (forall a, In a x -> exists b, f a = Ok b) -> exists v, each f x = Ok v.
Proof.
  induction x as [|a x IH]; intros H; [eexists; reflexivity|]. cbn [each].
  destruct (H a) as (b & ->); [now left|]. destruct IH as (v & ->); [intros; apply H; now right|].
  eexists; reflexivity.
Qed.

(** what they return: elements of the results of [f], in order *)
Lemma zipped_spec {A B C} (f : A -> B -> res C) : forall x y v, zipped f x y = Ok v ->
  if zlen x =? zlen y then Forall2 (fun p c => f (fst p) (snd p) = Ok c) (combine x y) v else v = [].
Proof.
  induction x as [|a x IH]; intros [|b y] v H.
  - injection H as <-. constructor.
  - injection H as <-. destruct (zlen _ =? _); [constructor | reflexivity].
  - rewrite zipped_nil_r in H. injection H as <-. destruct (zlen _ =? _); [constructor | reflexivity].
  - rewrite zlen_cons_eqb. rewrite zipped_cons in H. specialize (IH y).
    destruct (zlen x =? zlen y); [|now injection H as <-].
    destruct (f a b) eqn:F; [|discriminate]. destruct (zipped f x y); [|discriminate].
    injection H as <-. cbn [combine]. constructor; [exact F|]. now apply IH.
Qed.

Lemma each_spec {A B} (f : A -> res B) : forall x v, each f x = Ok v -> Forall2 (fun a b => f a = Ok b) x v.
Proof.
  induction x as [|a x IH]; intros v H; cbn [each] in H.
  - injection H as <-. constructor.
  - destruct (f a) eqn:F; [|discriminate]. destruct (each f x); [|discriminate]. injection H as <-. constructor; auto.
Qed.

Section Agree.
  Variables (e : bool) (I : interp).
  Hypothesis L : list_lib e I.

  Lemma vec2 f f2 f3 k op : arith_kind k -> defines I (vec_elem f f2 f3 k) -> forall l r v,
    zipped op l r = Ok v ->
    (forall x y z, In (x, y) (combine l r) -> op x y = Ok z -> arith I k x y = Some z) ->
    i_call I f [vl l; vl r] = Some (vl v).
  Proof.
    intros K D. induction l as [|x l IH]; intros [|y r] v H P; rewrite (vec_elem_unfold _ _ L f f2 f3 k K D).
    - injection H as <-. reflexivity.
    - injection H as <-. reflexivity.
    - rewrite zipped_nil_r in H. injection H as <-.
      destruct (Z.eqb_spec (zlen (x :: l)) (zlen (@nil Z))) as [E|_]; [|now rewrite orb_true_r].
      unfold zlen in E. simpl in E. lia.
    - rewrite zipped_cons in H. rewrite lt1_cons, zlen_cons_eqb. cbn [orb].
      destruct (zlen l =? zlen r); cbn [negb]; [|now injection H as <-].
      destruct (op x y) as [z|] eqn:F; [|discriminate]. destruct (zipped op l r) as [zs|] eqn:Zp; [|discriminate].
      injection H as <-. rewrite (P x y z) by (auto; now left).
      rewrite (IH r zs Zp) by (intros; eapply P; eauto; now right). apply (lib_prepend _ _ L).
  Qed.

  Lemma mat2 fv fm ft opv : defines I (mat_elem fv fm ft KAdd) -> forall m n v,
    zipped opv m n = Ok v ->
    (forall l r z, In (l, r) (combine m n) -> opv l r = Ok z -> i_call I fv [vl l; vl r] = Some (vl z)) ->
    e = true \/ Forall (fun r => r <> []) v ->
    i_call I fm [vm m; vm n] = Some (vm v).
  Proof.
    intros D. induction m as [|x m IH]; intros [|y n] v H P NE;
      rewrite (mat_elem_unfold _ _ L fv fm ft KAdd (or_introl eq_refl) D).
    - injection H as <-. reflexivity.
    - injection H as <-. reflexivity.
    - rewrite zipped_nil_r in H. injection H as <-.
      destruct (Z.eqb_spec (zlen (x :: m)) (zlen (@nil (list Z)))) as [E|_]; [|now rewrite orb_true_r].
      unfold zlen in E. simpl in E. lia.
    - rewrite zipped_cons in H. rewrite lt1_cons, zlen_cons_eqb. cbn [orb].
      destruct (zlen m =? zlen n); cbn [negb]; [|now injection H as <-].
      destruct (opv x y) as [z|] eqn:F; [|discriminate]. destruct (zipped opv m n) as [zs|] eqn:Zp; [|discriminate].
      injection H as <-. rewrite (P x y z) by (auto; now left).
      rewrite (IH n zs Zp).
      + apply (lib_mprepend _ _ L). destruct NE as [NE|NE]; [now left | right; now inversion NE].
      + intros; eapply P; eauto; now right.
      + destruct NE as [NE|NE]; [now left | right; now inversion NE].
  Qed.

  Lemma vec1 f f2 k sw op a : arith_kind k -> defines I (vec_scal f f2 (scal k sw)) -> forall l v,
    each op l = Ok v -> (forall x z, In x l -> op x = Ok z -> scal_val I k sw a x = Some z) ->
    i_call I f [VInt a; vl l] = Some (vl v).
  Proof.
    intros K D. induction l as [|x l IH]; intros v H P; rewrite (vec_scal_unfold _ _ L f f2 k sw K D); cbn [each] in H.
    - now injection H as <-.
    - destruct (op x) as [z|] eqn:F; [|discriminate]. destruct (each op l) as [zs|]; [|discriminate].
      injection H as <-. rewrite (P x z) by (auto; now left).
      rewrite (IH zs eq_refl) by (intros; apply P; auto; now right). apply (lib_prepend _ _ L).
  Qed.

  Lemma mat1 fv fm cf opv a : defines I (mat_scal fv fm cf) -> forall m v,
    each opv m = Ok v ->
    (forall l z, In l m -> opv l = Ok z -> i_call I fv [VInt a; vl l] = Some (vl z)) ->
    e = true \/ Forall (fun r => r <> []) v ->
    i_call I fm [VInt a; vm m] = Some (vm v).
  Proof.
    intros D. induction m as [|x m IH]; intros v H P NE; rewrite (mat_scal_unfold _ _ L fv fm cf D); cbn [each] in H.
    - now injection H as <-.
    - destruct (opv x) as [z|] eqn:F; [|discriminate]. destruct (each opv m) as [zs|]; [|discriminate].
      injection H as <-. rewrite (P x z) by (auto; now left).
      rewrite (IH zs eq_refl).
      + apply (lib_mprepend _ _ L). destruct NE as [NE|NE]; [now left | right; now inversion NE].
      + intros; apply P; auto; now right.
      + destruct NE as [NE|NE]; [now left | right; now inversion NE].
  Qed.

  (** *** function arguments *)
  Lemma map1 h g : defines I vec_map -> forall l v, each g l = Ok v ->
    (forall x z, In x l -> g x = Ok z -> i_call I h [VInt x] = Some (VInt z)) ->
    i_call I "vec_map" [vl l; VFn h] = Some (vl v).
  Proof.
    intros D. induction l as [|x l IH]; intros v H P; cbn [each] in H.
    - injection H as <-. destruct (D [vl []; VFn h]) as (r0 & B & E).
      { constructor; [now exists []|]. constructor; [now exists h|]. constructor. }
      cbn in B. injection B as <-. rewrite E. cbn. rewrite (lib_len _ _ L []). cbn. apply (lib_empty _ _ L).
    - destruct (g x) as [z|] eqn:F; [|discriminate]. destruct (each g l) as [zs|]; [|discriminate]. injection H as <-.
      destruct (D [vl (x :: l); VFn h]) as (r0 & B & E).
      { constructor; [now exists (x :: l)|]. constructor; [now exists h|]. constructor. }
      cbn in B. injection B as <-. cbn -[vl zlen] in E.
      rewrite (lib_len _ _ L), (lib_get0 _ _ L x l), (lib_tail1 _ _ L x l) in E. cbn -[vl zlen] in E.
      rewrite lt1_cons, (P x z), (IH zs eq_refl) in E by (auto; first [now left | intros; apply P; auto; now right]).
      rewrite E. exact (lib_prepend _ _ L z zs).
  Qed.

  Lemma selection_unfold h : defines I selection_two_args -> forall l r,
    i_call I "selection_two_args" [vl l; vl r; VFn h] =
    if (zlen l <? 1) || negb (zlen l =? zlen r) then Some (vl [])
    else match l, r with
         | x :: l', y :: r' =>
             match i_call I h [VInt x; VInt y], i_call I "selection_two_args" [vl l'; vl r'; VFn h] with
             | Some z, Some v => i_call I "list_prepend" [z; v]
             | _, _ => None
             end
         | _, _ => None
         end.
  Proof.
    intros D l r. destruct (D [vl l; vl r; VFn h]) as (r0 & B & E).
    { constructor; [now exists l|]. constructor; [now exists r|]. constructor; [now exists h|]. constructor. }
    cbn in B. injection B as <-. rewrite E. clear E. cbn -[vl zlen].
    rewrite (lib_len _ _ L l), (lib_len _ _ L r); cbn -[vl zlen].
    rewrite (lib_empty _ _ L), ?orb_false_r.
    destruct ((zlen l <? 1) || negb (zlen l =? zlen r)) eqn:C; [reflexivity|].
    apply orb_false_iff in C as [C1 C2]; apply negb_false_iff, Z.eqb_eq in C2.
    destruct l as [|x l']; [discriminate C1|]; destruct r as [|y r']; [discriminate C2|].
    rewrite (lib_get0 _ _ L x l'), (lib_get0 _ _ L y r'), (lib_tail1 _ _ L x l'), (lib_tail1 _ _ L y r').
    cbn -[vl zlen]. destruct (i_call I h [VInt x; VInt y]); [|reflexivity].
    destruct (i_call I "selection_two_args" [vl l'; vl r'; VFn h]); reflexivity.
  Qed.

  Lemma matrix_selection_unfold h : defines I matrix_selection_two_args -> forall m n,
    i_call I "matrix_selection_two_args" [vm m; vm n; VFn h] =
    if (zlen m <? 1) || negb (zlen m =? zlen n) then Some (vm [])
    else match m, n with
         | x :: m', y :: n' =>
             match i_call I "selection_two_args" [vl x; vl y; VFn h],
                   i_call I "matrix_selection_two_args" [vm m'; vm n'; VFn h] with
             | Some z, Some v => i_call I "matrix_prepend" [z; v]
             | _, _ => None
             end
         | _, _ => None
         end.
  Proof.
    intros D m n. destruct (D [vm m; vm n; VFn h]) as (r0 & B & E).
    { constructor; [now exists m|]. constructor; [now exists n|]. constructor; [now exists h|]. constructor. }
    cbn in B. injection B as <-. rewrite E. clear E. cbn -[vl vm zlen].
    rewrite (lib_mlen _ _ L m), (lib_mlen _ _ L n); cbn -[vl vm zlen].
    rewrite (lib_mempty _ _ L), ?orb_false_r.
    destruct ((zlen m <? 1) || negb (zlen m =? zlen n)) eqn:C; [reflexivity|].
    apply orb_false_iff in C as [C1 C2]; apply negb_false_iff, Z.eqb_eq in C2.
    destruct m as [|x m']; [discriminate C1|]; destruct n as [|y n']; [discriminate C2|].
    rewrite (lib_mget0 _ _ L x m'), (lib_mget0 _ _ L y n'), (lib_mtail1 _ _ L x m'), (lib_mtail1 _ _ L y n').
    cbn -[vl vm zlen]. destruct (i_call I "selection_two_args" [vl x; vl y; VFn h]); [|reflexivity].
    destruct (i_call I "matrix_selection_two_args" [vm m'; vm n'; VFn h]); reflexivity.
  Qed.

  Lemma selection2 h g : defines I selection_two_args -> forall l r v, zipped g l r = Ok v ->
    (forall x y z, In (x, y) (combine l r) -> g x y = Ok z -> i_call I h [VInt x; VInt y] = Some (VInt z)) ->
    i_call I "selection_two_args" [vl l; vl r; VFn h] = Some (vl v).
  Proof.
    intros D. induction l as [|x l IH]; intros [|y r] v H P; rewrite (selection_unfold h D).
    - injection H as <-. reflexivity.
    - injection H as <-. reflexivity.
    - rewrite zipped_nil_r in H. injection H as <-.
      destruct (Z.eqb_spec (zlen (x :: l)) (zlen (@nil Z))) as [E|_]; [|now rewrite orb_true_r].
      unfold zlen in E. simpl in E. lia.
    - rewrite zipped_cons in H. rewrite lt1_cons, zlen_cons_eqb. cbn [orb].
      destruct (zlen l =? zlen r); cbn [negb]; [|now injection H as <-].
      destruct (g x y) as [z|] eqn:F; [|discriminate]. destruct (zipped g l r) as [zs|] eqn:Zp; [|discriminate].
      injection H as <-. rewrite (P x y z) by (auto; now left).
      rewrite (IH r zs Zp) by (intros; eapply P; eauto; now right). apply (lib_prepend _ _ L).
  Qed.

  Lemma matrix_selection2 h g : defines I selection_two_args -> defines I matrix_selection_two_args ->
    forall m n v, py_matrix_selection_two_args m n g = Ok v ->
    (forall l r x y z, In (l, r) (combine m n) -> In (x, y) (combine l r) -> g x y = Ok z ->
       i_call I h [VInt x; VInt y] = Some (VInt z)) ->
    e = true \/ Forall (fun r => r <> []) v ->
    i_call I "matrix_selection_two_args" [vm m; vm n; VFn h] = Some (vm v).
  Proof.
    intros D1 D. unfold py_matrix_selection_two_args, py_selection_two_args.
    induction m as [|x m IH]; intros [|y n] v H P NE; rewrite (matrix_selection_unfold h D).
    - injection H as <-. reflexivity.
    - injection H as <-. reflexivity.
    - rewrite zipped_nil_r in H. injection H as <-.
      destruct (Z.eqb_spec (zlen (x :: m)) (zlen (@nil (list Z)))) as [E|_]; [|now rewrite orb_true_r].
      unfold zlen in E. simpl in E. lia.
    - rewrite zipped_cons in H. rewrite lt1_cons, zlen_cons_eqb. cbn [orb].
      destruct (zlen m =? zlen n); cbn [negb]; [|now injection H as <-].
      destruct (zipped g x y) as [z|] eqn:F; [|discriminate].
      destruct (zipped (fun x y => zipped g x y) m n) as [zs|] eqn:Zp; [|discriminate].
      injection H as <-. rewrite (selection2 h g D1 x y z F) by (intros; eapply P; eauto; now left).
      rewrite (IH n zs Zp).
      + apply (lib_mprepend _ _ L). destruct NE as [NE|NE]; [now left | right; now inversion NE].
      + intros; eapply P; eauto; now right.
      + destruct NE as [NE|NE]; [now left | right; now inversion NE].
  Qed.
End Agree.

(** ** reductions and the matrix-vector product *)

Lemma py_sum_is l : py_reduce_sum l = fold_right Z.add 0 l.
Proof. induction l; cbn; congruence. Qed.
Lemma py_mul_is l : py_reduce_mul l = fold_right Z.mul 1 l.
Proof. induction l; cbn [py_reduce_mul fold_right]; congruence. Qed.
Lemma py_max_is l : py_reduce_max l = match l with [] => -32 | x :: r => maxval x r end.
Proof.
  induction l as [|x l IH]; [reflexivity|]. cbn [py_reduce_max]. rewrite IH. destruct l as [|y r]; [reflexivity|].
  destruct (Z.eqb_spec (zlen (x :: y :: r)) 1) as [E|_]; [unfold zlen in E; simpl in E; lia|].
  cbn [maxval]. rewrite Z.gtb_ltb. destruct (Z.ltb_spec (maxval y r) x); lia.
Qed.

Lemma zipped_ok {A B C} (g : A -> B -> C) : forall x y, zlen x = zlen y ->
  zipped (fun a b => Ok (g a b)) x y = Ok (map (fun p => g (fst p) (snd p)) (combine x y)).
Proof.
  induction x as [|a x IH]; intros [|b y] E; try (unfold zlen in E; simpl in E; lia); [reflexivity|].
  rewrite zipped_cons. assert (E' : zlen x = zlen y) by (unfold zlen in *; simpl in E; lia).
  rewrite E', Z.eqb_refl, (IH y E'). reflexivity.
Qed.

Lemma py_mvm_is m x : py_matrix_vec_mul m x = Ok (map (fun r => dot r x) (good_rows m x)).
Proof.
  induction m as [|r m IH]; [reflexivity|]. cbn [py_matrix_vec_mul good_rows].
  destruct ((zlen r <? 1) || negb (zlen r =? zlen x)) eqn:C; [reflexivity|].
  apply orb_false_iff in C as [_ C]. apply negb_false_iff, Z.eqb_eq in C.
  unfold py_vec_elemwise_mul. rewrite (zipped_ok Z.mul r x C), IH. cbn [bindR map]. rewrite py_sum_is. reflexivity.
Qed.

(** ** slices *)
Lemma firstn_bound {A} (l : list A) i : 0 <= i -> firstn (Z.to_nat (bound (zlen l) i)) l = firstn (Z.to_nat i) l.
Proof.
  intros P. unfold bound. destruct (Z.ltb_spec i 0); [lia|]. unfold zlen.
  destruct (Z.min_spec i (Z.of_nat (Datatypes.length l))) as [[? ->]|[? ->]]; [reflexivity|].
  rewrite Nat2Z.id, firstn_all, firstn_all2; [reflexivity | lia].
Qed.
Lemma skipn_bound {A} (l : list A) n i : 0 <= i -> (Datatypes.length l <= Z.to_nat n)%nat ->
  skipn (Z.to_nat (bound n i)) l = skipn (Z.to_nat i) l.
Proof.
  intros P N. unfold bound. destruct (Z.ltb_spec i 0); [lia|].
  destruct (Z.min_spec i n) as [[? ->]|[? ->]]; [reflexivity|].
  rewrite !skipn_all2 by lia. reflexivity.
Qed.
Lemma upto_is {A} (l : list A) en : 0 <= en -> upto l en = firstn (Z.to_nat en) l.
Proof. apply firstn_bound. Qed.
Lemma from_is {A} (l : list A) st : 0 <= st -> from l st = skipn (Z.to_nat st) l.
Proof. intros P. apply skipn_bound; [exact P|]. unfold zlen. lia. Qed.
Lemma slice_is {A} (l : list A) st en : 0 <= st -> 0 <= en -> slice l st en = skipn (Z.to_nat st) (firstn (Z.to_nat en) l).
Proof.
  intros P Q. unfold slice. rewrite (upto_is l en Q). apply skipn_bound; [exact P|].
  rewrite firstn_length. unfold zlen. lia.
Qed.

(** ** exponentials *)
Lemma py_exp_nat_is n : py_exp_nat n = 3 ^ Z.of_nat n mod 64.
Proof.
  induction n as [|n IH]; [reflexivity|]. cbn [py_exp_nat].
  rewrite IH, Zmult_mod_idemp_l, Nat2Z.inj_succ, Z.pow_succ_r by lia. f_equal. lia.
Qed.

(** ** transposition *)
Lemma firsts_empty_row m : In [] m -> py_firsts m = Err ExIndex.
Proof.
  unfold py_firsts. induction m as [|r m IH]; [intros []|]. intros [->|H]; [reflexivity|]. cbn [each].
  destruct r; [reflexivity|]. cbn [bindR]. now rewrite (IH H).
Qed.

Lemma slice_from1 {A} (r : list A) n : slice r 1 n = skipn 1 (upto r n).
Proof.
  unfold slice. destruct r as [|x r]; [unfold upto; now rewrite firstn_nil, !skipn_nil|].
  f_equal. unfold bound, zlen. simpl Datatypes.length. destruct (Z.ltb_spec 1 0); [lia|].
  rewrite Z.min_l by lia. reflexivity.
Qed.

Lemma transpose_raises : forall k r m fuel, Datatypes.length r = k -> (k < fuel)%nat ->
  py_matrix_transpose fuel (r :: m) = Err ExIndex.
Proof.
  induction k as [|k IH]; intros r m fuel E F; (destruct fuel; [lia|]); cbn [py_matrix_transpose]; rewrite lt1_cons.
  - destruct r; [|discriminate]. rewrite firsts_empty_row by now left. reflexivity.
  - destruct r as [|x r]; [discriminate|]. injection E as E.
    destruct (py_firsts ((x :: r) :: m)) as [c|x'] eqn:C.
    2:{ cbn [bindR]. enough (x' = ExIndex) by congruence. revert C. clear. unfold py_firsts.
        generalize ((x :: r) :: m). clear. intros l. revert x'. induction l as [|a l IH]; intros x' H; [discriminate|].
        cbn [each] in H. destruct a; [now injection H as <-|]. cbn [bindR] in H.
        destruct (each _ l) eqn:Q; [discriminate|]. cbn [bindR] in H. injection H as <-. now apply IH. }
    cbn [bindR]. cbn [py_rests py_matrix_col_slice map]. rewrite slice_from1.
    rewrite (upto_is (x :: r)) by (unfold zlen; lia). unfold zlen. rewrite Nat2Z.id, firstn_all.
    cbn [skipn]. rewrite IH by (auto; lia). reflexivity.
Qed.

(** ** square roots *)
Lemma sqrt_loops n : (n < 0 \/ 1 < n <= 64) -> forall fuel, py_integer_sqrt fuel n = Err ExFuel.
Proof.
  intros N fuel. unfold py_integer_sqrt.
  assert (Q : n / 2 / n / 2 = 0 /\ n / 2 / n <> n).
  { assert (D : n / 2 / n = 0 \/ (n = -1 /\ n / 2 / n = 1)).
    { destruct N as [N|N].
      - destruct (Z.eq_dec n (-1)) as [->|M]; [right; split; reflexivity|left].
        pose proof (Z.div_mod n 2 ltac:(lia)). pose proof (Z.mod_pos_bound n 2 ltac:(lia)).
        rewrite <- Zdiv_opp_opp. apply Z.div_small. lia.
      - left. pose proof (Z.div_mod n 2 ltac:(lia)). pose proof (Z.mod_pos_bound n 2 ltac:(lia)).
        apply Z.div_small. lia. }
    destruct D as [->|[-> ->]]; split; try reflexivity; lia. }
  destruct Q as [Q1 Q2]. induction fuel as [|fuel IH]; [reflexivity|]. cbn [py_integer_sqrt_helper].
  replace ((n =? 0) || (n =? 1) || (n >? 64)) with false.
  2:{ symmetry. rewrite Z.gtb_ltb. rewrite !orb_false_iff. repeat split; [apply Z.eqb_neq|apply Z.eqb_neq|apply Z.ltb_ge]; lia. }
  unfold floordiv. destruct (Z.eqb_spec n 0); [lia|]. cbn [bindR].
  destruct (Z.eqb_spec n (n / 2 / n)); [congruence|]. rewrite Q1, Z.add_0_r. exact IH.
Qed.
Lemma sqrt_one n fuel : n = 0 \/ n = 1 \/ 64 < n -> py_integer_sqrt (S fuel) n = Ok 1.
Proof.
  intros N. unfold py_integer_sqrt. cbn [py_integer_sqrt_helper].
  replace ((n =? 0) || (n =? 1) || (n >? 64)) with true; [reflexivity|].
  symmetry. rewrite Z.gtb_ltb. rewrite !orb_true_iff.
  destruct N as [->|[->|N]]; auto. right. now apply Z.ltb_lt.
Qed.
