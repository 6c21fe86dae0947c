(** Proofs about the reference solutions. *)

From Coq Require Import String List ZArith Bool Lia.
From Verif Require Import Ast RktModel DslModel TensProofs DslProofs SolModel.
Import ListNotations.
Local Open Scope string_scope.
Local Open Scope Z_scope.

(** ** loops *)

Lemma iter_push {A B} (f : Z -> res B) (g : A -> B) : forall (l : list A) i out,
  (forall j a, nth_error l j = Some a -> f (i + Z.of_nat j) = Ok (g a)) ->
  iter (Datatypes.length l) i (push f) out = Ok (out ++ map g l)%list.
Proof.
  induction l as [|a l IH]; intros i out H; cbn [iter Datatypes.length map].
  - now rewrite app_nil_r.
  - unfold push at 1. replace i with (i + Z.of_nat 0) at 1 by lia. rewrite (H 0%nat a eq_refl). cbn [bindR].
    rewrite IH, <- app_assoc; [reflexivity|].
    intros j b N. replace (i + 1 + Z.of_nat j) with (i + Z.of_nat (S j)) by lia. now apply H.
Qed.

Lemma iter_fold {A T} (body : Z -> T -> res T) (h : T -> A -> T) : forall (l : list A) i s,
  (forall j a t, nth_error l j = Some a -> body (i + Z.of_nat j) t = Ok (h t a)) ->
  iter (Datatypes.length l) i body s = Ok (fold_left h l s).
Proof.
  induction l as [|a l IH]; intros i s H; cbn [iter Datatypes.length fold_left]; [reflexivity|].
  replace i with (i + Z.of_nat 0) at 1 by lia. rewrite (H 0%nat a s eq_refl). cbn [bindR]. apply IH.
  intros j b t N. replace (i + 1 + Z.of_nat j) with (i + Z.of_nat (S j)) by lia. now apply H.
Qed.

Lemma for_push {A B} (f : Z -> res B) (g : A -> B) (l : list A) n : n = zlen l ->
  (forall j a, nth_error l j = Some a -> f (Z.of_nat j) = Ok (g a)) ->
  for_ 0 n (push f) [] = Ok (map g l).
Proof.
  intros -> H. unfold for_, zlen. rewrite Z.sub_0_r, Nat2Z.id.
  rewrite (iter_push f g l 0 []); [reflexivity|]. intros j a N. now apply H.
Qed.

Lemma for_fold {A T} (body : Z -> T -> res T) (h : T -> A -> T) (l : list A) n s : n = zlen l ->
  (forall j a t, nth_error l j = Some a -> body (Z.of_nat j) t = Ok (h t a)) ->
  for_ 0 n body s = Ok (fold_left h l s).
Proof.
  intros -> H. unfold for_, zlen. rewrite Z.sub_0_r, Nat2Z.id. apply iter_fold. intros j a t N. now apply H.
Qed.

Lemma at_nth {A} (l : list A) j a : nth_error l j = Some a -> at_ l (Z.of_nat j) = Ok a.
Proof. intros H. unfold at_. destruct (Z.ltb_spec (Z.of_nat j) 0); [lia|]. now rewrite Nat2Z.id, H. Qed.
Lemma at_map {A B} (f : A -> B) l j a : nth_error l j = Some a -> at_ (map f l) (Z.of_nat j) = Ok (f a).
Proof. intros H. apply at_nth. now apply map_nth_error. Qed.
Lemma cell_map {A} (f : A -> Z) L j k row p : nth_error L j = Some row -> nth_error row k = Some p ->
  cell (map (map f) L) (Z.of_nat j) (Z.of_nat k) = Ok (f p).
Proof. intros H1 H2. unfold cell. rewrite (at_map (map f) L j row H1). cbn [bindR]. now apply at_map. Qed.

Lemma zlen_map {A B} (f : A -> B) l : zlen (map f l) = zlen l.
Proof. unfold zlen. now rewrite map_length. Qed.

Lemma nth_In {A} (l : list A) j a : nth_error l j = Some a -> In a l.
Proof. apply nth_error_In. Qed.

Lemma firstn_zlen {A} (l : list A) n : 0 <= n <= zlen l -> zlen (firstn (Z.to_nat n) l) = n.
Proof. unfold zlen. intros H. rewrite firstn_length. lia. Qed.
Lemma nth_firstn {A} (l : list A) : forall n j a, nth_error (firstn n l) j = Some a -> nth_error l j = Some a.
Proof. induction l as [|b l IH]; intros [|n] [|j] a H; cbn in *; try discriminate; auto. eapply IH; eauto. Qed.

Lemma blend_rows_is {A} (pixel : Z -> Z -> res Z) (f d : A -> Z) (L : list (list A)) n k : L <> [] ->
  0 <= k <= zlen L ->
  Forall (fun r => zlen r = n) L ->
  (forall j k row p, nth_error L j = Some row -> nth_error row k = Some p -> pixel (Z.of_nat j) (Z.of_nat k) = Ok (d p)) ->
  blend_rows pixel (map (map f) L) k = Ok (map (map d) (firstn (Z.to_nat k) L)).
Proof.
  intros NE K F H. unfold blend_rows. destruct L as [|r0 L]; [congruence|].
  change (at_ (map (map f) (r0 :: L)) 0) with (Ok (map f r0)). cbn [bindR]. rewrite !zlen_map.
  apply (for_push _ (map d) (firstn (Z.to_nat k) (r0 :: L))).
  - symmetry. now apply firstn_zlen.
  - intros j row N. apply nth_firstn in N. apply for_push.
    + rewrite Forall_forall in F. rewrite (F row (nth_In _ _ _ N)). exact (F r0 (or_introl eq_refl)).
    + intros c p M. now apply (H j c row).
Qed.

(** ** the Python functions on lists that are images of one list *)

Lemma zipped_map {X A B C} (f : A -> B -> res C) (a : X -> A) (b : X -> B) (d : X -> C) : forall l,
  (forall p, In p l -> f (a p) (b p) = Ok (d p)) -> zipped f (map a l) (map b l) = Ok (map d l).
Proof.
  induction l as [|p l IH]; intros H; [reflexivity|]. cbn [map]. rewrite zipped_cons, !zlen_map, Z.eqb_refl.
  rewrite (H p (or_introl eq_refl)), IH by (intros; apply H; now right). reflexivity.
Qed.
Lemma each_map {X A B} (f : A -> res B) (a : X -> A) (d : X -> B) : forall l,
  (forall p, In p l -> f (a p) = Ok (d p)) -> each f (map a l) = Ok (map d l).
Proof.
  induction l as [|p l IH]; intros H; [reflexivity|]. cbn [map each].
  rewrite (H p (or_introl eq_refl)), IH by (intros; apply H; now right). reflexivity.
Qed.
Lemma zipped2_map {X} (f : Z -> Z -> res Z) (a b d : X -> Z) L :
  (forall r p, In r L -> In p r -> f (a p) (b p) = Ok (d p)) ->
  zipped (fun x y => zipped f x y) (map (map a) L) (map (map b) L) = Ok (map (map d) L).
Proof. intros H. apply zipped_map. intros r IN. apply zipped_map. intros p J. now apply (H r). Qed.
Lemma each2_map {X} (f : Z -> res Z) (a d : X -> Z) L :
  (forall r p, In r L -> In p r -> f (a p) = Ok (d p)) ->
  each (each f) (map (map a) L) = Ok (map (map d) L).
Proof. intros H. apply each_map. intros r IN. apply each_map. intros p J. now apply (H r). Qed.

(** two matrices of the same shape are the images of a matrix of pairs *)
Lemma paired_row (P : Z -> Z -> Prop) r s : Forall2 P r s ->
  exists l, r = map fst l /\ s = map snd l /\ Forall (fun p => P (fst p) (snd p)) l.
Proof.
  induction 1 as [|x y r s Q F (l & -> & -> & G)]; [exists []; repeat split; constructor|].
  exists ((x, y) :: l). repeat split. constructor; auto.
Qed.
Lemma paired (P : Z -> Z -> Prop) n m m' : Forall2 (fun r s => zlen r = n /\ Forall2 P r s) m m' ->
  exists L, m = map (map fst) L /\ m' = map (map snd) L /\ Forall (fun r => zlen r = n) L /\
    (forall r p, In r L -> In p r -> P (fst p) (snd p)).
Proof.
  induction 1 as [|r s m m' [E Q] F (L & -> & -> & G & H)].
  - exists []. repeat split; [constructor|]. intros r p [].
  - destruct (paired_row P r s Q) as (l & -> & -> & Fl). exists (l :: L). repeat split.
    + constructor; [now rewrite zlen_map in E | exact G].
    + intros r p [<-|IN] J; [|now apply (H r)]. rewrite Forall_forall in Fl. now apply Fl.
Qed.

Lemma quot_div x y : 0 <= x -> 0 < y -> Z.quot x y = x / y.
Proof. intros. apply Z.quot_div_nonneg; lia. Qed.

(** ** reductions *)
Lemma fold_left_add {A} (g : A -> Z) l : forall s, fold_left (fun t a => t + g a) l s = s + fold_right Z.add 0 (map g l).
Proof. induction l as [|a l IH]; intros s; cbn; [lia|]. rewrite IH. lia. Qed.
Lemma fold_left_max l : forall s, fold_left (fun t a => if a >? t then a else t) l s = maxval s l.
Proof.
  assert (M : forall l s t, s <= t -> Z.max s (maxval t l) = maxval t l).
  { intros l0 s t H. destruct l0; cbn [maxval]; lia. }
  induction l as [|a l IH]; intros s; [reflexivity|]. cbn [fold_left maxval]. rewrite IH. rewrite Z.gtb_ltb.
  destruct (Z.ltb_spec s a).
  - symmetry. apply M. lia.
  - destruct l; cbn [maxval]; lia.
Qed.

Lemma py_exp_pos n : 0 < py_integer_exp n.
Proof.
  unfold py_integer_exp. destruct (n <=? 0); [lia|].
  assert (O : forall k, Z.odd (py_exp_nat k) = true /\ 0 <= py_exp_nat k).
  { induction k as [|k [IH1 IH2]]; [split; [reflexivity | cbn; lia]|]. cbn [py_exp_nat]. split.
    - pose proof (Z.div_mod (py_exp_nat k * 3) 64 ltac:(lia)) as E.
      assert (Q : (py_exp_nat k * 3) mod 64 = py_exp_nat k * 3 - 2 * (32 * (py_exp_nat k * 3 / 64))) by lia.
      rewrite Q, Z.odd_sub, Z.odd_mul, Z.odd_mul, IH1. reflexivity.
    - apply Z.mod_pos_bound. lia. }
  destruct (O (Z.to_nat n)) as [O1 O2]. destruct (Z.eq_dec (py_exp_nat (Z.to_nat n)) 0) as [E|E]; [|lia].
  rewrite E in O1. discriminate.
Qed.
