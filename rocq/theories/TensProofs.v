(** Proofs about the tensor DSL. *)

From Coq Require Import String List ZArith Bool Lia.
From Verif Require Import Ast Semantics IrProofs5 RktModel UtilModel ObjModel TensModel LibSem.
Import ListNotations.
Local Open Scope string_scope.
Local Open Scope Z_scope.

(** ** specification *)

(** values of the IR types used by the DSL *)
Definition has_ty (v : val) (t : ty) : Prop :=
  match t with
  | TInt => exists z, v = VInt z
  | TBool => exists b, v = VBool b
  | TList TInt => exists l, v = vl l
  | TMatrix TInt => exists m, v = vm m
  | TTensor3D TInt => exists m, v = vt m
  | TFn _ => exists f, v = VFn f
  | _ => False
  end.

(** [I] gives the declared function its meaning: on all arguments of the parameter
    types, a call has the value of the body (the semantics of [define-fun-rec], and of
    the Racket definition) *)
Definition defines (I : interp) (d : res expr) : Prop :=
  match d with
  | Ok (Node (KFnDeclRec | KFnDecl) (TFn (_ :: ts)) (Atom (PStr f) :: body :: params)) =>
      forall vs, Forall2 has_ty vs ts ->
      exists r, bind_params params vs = Some r /\ i_call I f vs = eval I r body
  | _ => False
  end.

(** the arithmetic operation a kind of expression stands for *)
Definition arith (I : interp) (k : kind) (x y : Z) : option Z :=
  match k with
  | KAdd => Some (x + y) | KSub => Some (x - y) | KMul => Some (x * y) | KDiv => i_div I x y
  | _ => None
  end.
Definition arith_kind (k : kind) : Prop := k = KAdd \/ k = KSub \/ k = KMul \/ k = KDiv.

(** pointwise application to two vectors *)
Definition pointwise (g : Z -> Z -> option Z) (l r : list Z) : option (list Z) :=
  mapO (fun p => g (fst p) (snd p)) (combine l r).

(** ** vectors *)

Ltac split_or H := let A := fresh in destruct H as [A|H]; [rewrite A in *|].

Section Vec.
  Variables (e : bool) (I : interp).
  Hypothesis L : list_lib e I.

  Lemma lt1_cons {A} (x : A) l : (zlen (x :: l) <? 1) = false.
  Proof. unfold zlen. simpl List.length. apply Z.ltb_ge. lia. Qed.

  Lemma zlen_cons_eqb {A B} (x : A) l (y : B) r : (zlen (x :: l) =? zlen (y :: r)) = (zlen l =? zlen r).
  Proof.
    unfold zlen. simpl List.length. destruct (Z.eqb_spec (Z.of_nat (List.length l)) (Z.of_nat (List.length r)));
      [apply Z.eqb_eq | apply Z.eqb_neq]; lia.
  Qed.

  Definition vec_elem (f f2 f3 : string) (k : kind) : res expr :=
    b <- elemwise_body v_x v_y (op k) f f2 f3 ;; fn_decl_recursive f (TList TInt) b [v_x; v_y].

  Lemma vec_elem_unfold f f2 f3 k : arith_kind k -> defines I (vec_elem f f2 f3 k) -> forall l r,
    i_call I f [vl l; vl r] =
    if (zlen l <? 1) || negb (zlen l =? zlen r) then Some (vl [])
    else match l, r with
         | x :: l', y :: r' =>
             match arith I k x y, i_call I f [vl l'; vl r'] with
             | Some z, Some v => i_call I "list_prepend" [VInt z; v]
             | _, _ => None
             end
         | _, _ => None
         end.
  Proof.
    intros K D l r.
    assert (D' : exists r0, bind_params [o_src v_x; o_src v_y] [vl l; vl r] = Some r0 /\
       i_call I f [vl l; vl r] = eval I r0 (match vec_elem f f2 f3 k with
          Ok (Node _ _ (_ :: b :: _)) => b | _ => Atom PNone end)).
    { destruct K as [->|[->|[->| ->]]]; refine (D [vl l; vl r] _);
        (constructor; [now exists l|]; constructor; [now exists r|]; constructor). }
    clear D. destruct D' as (r0 & B & E). cbn in B. injection B as <-. rewrite E. clear E.
    destruct K as [->|[->|[->| ->]]]; cbn;
      rewrite (lib_len _ _ L l), (lib_len _ _ L r); cbn;
      rewrite (lib_empty _ _ L);
      rewrite ?orb_false_r;
      (destruct ((zlen l <? 1) || negb (zlen l =? zlen r)) eqn:C; [reflexivity|]);
      (apply orb_false_iff in C as [C1 C2]; apply negb_false_iff, Z.eqb_eq in C2;
       destruct l as [|x l']; [discriminate C1|]; destruct r as [|y r']; [discriminate C2|]);
      rewrite (lib_get0 _ _ L x l'), (lib_get0 _ _ L y r'), (lib_tail1 _ _ L x l'), (lib_tail1 _ _ L y r'); cbn;
      try (destruct (i_div I x y)); cbn; destruct (i_call I f [vl l'; vl r']); reflexivity.
  Qed.

  Lemma pointwise_nil g l : pointwise g [] l = Some [].
  Proof. reflexivity. Qed.

  Lemma pointwise_cons g x l y r : pointwise g (x :: l) (y :: r) =
    match g x y with Some z => match pointwise g l r with Some zs => Some (z :: zs) | None => None end | None => None end.
  Proof. reflexivity. Qed.

  Lemma vec_elem_pointwise f f2 f3 k : arith_kind k -> defines I (vec_elem f f2 f3 k) ->
    forall l r, List.length l = List.length r ->
    i_call I f [vl l; vl r] = option_map vl (pointwise (arith I k) l r).
  Proof.
    intros K D. induction l as [|x l IH]; intros r E; rewrite (vec_elem_unfold f f2 f3 k K D).
    - reflexivity.
    - destruct r as [|y r]; [discriminate|]. injection E as E.
      rewrite lt1_cons, zlen_cons_eqb. unfold zlen at 1 2. rewrite E, Z.eqb_refl. cbn [orb negb].
      rewrite IH by exact E. rewrite pointwise_cons.
      destruct (arith I k x y); [|reflexivity]. destruct (pointwise (arith I k) l r); [|reflexivity].
      cbn [option_map]. apply (lib_prepend _ _ L).
  Qed.

  (** vectors of different lengths give the empty vector *)
  Lemma vec_elem_mismatch f f2 f3 k : arith_kind k -> defines I (vec_elem f f2 f3 k) ->
    forall l r, List.length l <> List.length r -> i_call I f [vl l; vl r] = Some (vl []).
  Proof.
    intros K D l r N. rewrite (vec_elem_unfold f f2 f3 k K D).
    destruct (Z.eqb_spec (zlen l) (zlen r)) as [E|E]; [unfold zlen in E; lia|].
    now rewrite orb_true_r.
  Qed.

  (** *** scalar and vector *)
  Definition vec_scal (f f2 : string) (cf : obj -> obj -> res obj) : res expr :=
    b <- scalar_body v_a v_x cf f f2 ;; fn_decl_recursive f (TList TInt) b [v_a; v_x].

  (** the operation of a lambda of the form [lambda scalar, int_x: ..] *)
  Definition scal (k : kind) (swap : bool) : obj -> obj -> res obj := if swap then rop k else op k.
  Definition scal_val (k : kind) (swap : bool) (a x : Z) : option Z :=
    if swap then arith I k x a else arith I k a x.

  Lemma vec_scal_unfold f f2 k sw : arith_kind k -> defines I (vec_scal f f2 (scal k sw)) -> forall a l,
    i_call I f [VInt a; vl l] =
    match l with
    | [] => Some (vl [])
    | x :: l' =>
        match scal_val k sw a x, i_call I f [VInt a; vl l'] with
        | Some z, Some v => i_call I "list_prepend" [VInt z; v]
        | _, _ => None
        end
    end.
  Proof.
    intros K D a l.
    assert (D' : exists r0, bind_params [o_src v_a; o_src v_x] [VInt a; vl l] = Some r0 /\
       i_call I f [VInt a; vl l] = eval I r0 (match vec_scal f f2 (scal k sw) with
          Ok (Node _ _ (_ :: b :: _)) => b | _ => Atom PNone end)).
    { destruct K as [->|[->|[->| ->]]], sw; refine (D [VInt a; vl l] _);
        (constructor; [now exists a|]; constructor; [now exists l|]; constructor). }
    clear D. destruct D' as (r0 & B & E). cbn in B. injection B as <-. rewrite E. clear E.
    destruct K as [->|[->|[->| ->]]], sw; cbn;
      rewrite (lib_len _ _ L l), (lib_empty _ _ L); cbn;
      (destruct l as [|x l']; [reflexivity|]);
      rewrite lt1_cons, (lib_get0 _ _ L x l'), (lib_tail1 _ _ L x l'); cbn;
      try (destruct (i_div I x a)); try (destruct (i_div I a x)); cbn; destruct (i_call I f [VInt a; vl l']); reflexivity.
  Qed.

  Lemma vec_scal_pointwise f f2 k sw : arith_kind k -> defines I (vec_scal f f2 (scal k sw)) -> forall a l,
    i_call I f [VInt a; vl l] = option_map vl (mapO (scal_val k sw a) l).
  Proof.
    intros K D a. induction l as [|x l IH]; rewrite (vec_scal_unfold f f2 k sw K D); [reflexivity|].
    rewrite IH. cbn [mapO]. destruct (scal_val k sw a x); [|reflexivity].
    destruct (mapO (scal_val k sw a) l); [|reflexivity]. apply (lib_prepend _ _ L).
  Qed.

  (** *** vec_map *)
  Lemma vec_map_pointwise h g : (forall x, i_call I h [VInt x] = option_map VInt (g x)) ->
    defines I vec_map -> forall l, i_call I "vec_map" [vl l; VFn h] = option_map vl (mapO g l).
  Proof.
    intros G D. induction l as [|x l IH].
    - destruct (D [vl []; VFn h]) as (r0 & B & E).
      { constructor; [now exists []|]. constructor; [now exists h|]. constructor. }
      cbn in B. injection B as <-. rewrite E. cbn. rewrite (lib_len _ _ L []). cbn. apply (lib_empty _ _ L).
    - destruct (D [vl (x :: l); VFn h]) as (r0 & B & E).
      { constructor; [now exists (x :: l)|]. constructor; [now exists h|]. constructor. }
      cbn in B. injection B as <-. cbn -[vl zlen] in E.
      rewrite (lib_len _ _ L), (lib_get0 _ _ L x l), (lib_tail1 _ _ L x l) in E. cbn -[vl zlen] in E.
      rewrite lt1_cons, G, IH in E. rewrite E. clear E. cbn [mapO].
      destruct (g x) as [z|]; [|reflexivity]. cbn [option_map].
      destruct (mapO g l) as [zs|]; [|reflexivity]. exact (lib_prepend _ _ L z zs).
  Qed.

  (** *** selection_two_args *)
  Lemma selection_pointwise h g : (forall x y, i_call I h [VInt x; VInt y] = option_map VInt (g x y)) ->
    defines I selection_two_args -> forall l r, List.length l = List.length r ->
    i_call I "selection_two_args" [vl l; vl r; VFn h] = option_map vl (pointwise g l r).
  Proof.
    intros G D. induction l as [|x l IH]; intros r E0.
    - destruct r; [|discriminate]. destruct (D [vl []; vl []; VFn h]) as (r0 & B & E).
      { constructor; [now exists []|]. constructor; [now exists []|]. constructor; [now exists h|]. constructor. }
      cbn in B. injection B as <-. rewrite E. cbn. rewrite (lib_len _ _ L []). cbn. apply (lib_empty _ _ L).
    - destruct r as [|y r]; [discriminate|]. injection E0 as E0.
      destruct (D [vl (x :: l); vl (y :: r); VFn h]) as (r0 & B & E).
      { constructor; [now exists (x :: l)|]. constructor; [now exists (y :: r)|]. constructor; [now exists h|]. constructor. }
      cbn in B. injection B as <-. cbn -[vl zlen] in E.
      rewrite !(lib_len _ _ L), (lib_get0 _ _ L x l), (lib_get0 _ _ L y r), (lib_tail1 _ _ L x l), (lib_tail1 _ _ L y r) in E.
      cbn -[vl zlen] in E. rewrite lt1_cons, zlen_cons_eqb, G, IH in E by exact E0.
      unfold zlen at 1 2 in E. rewrite E0, Z.eqb_refl in E. cbn -[vl zlen] in E. rewrite E. clear E.
      rewrite pointwise_cons. destruct (g x y) as [z|]; [|reflexivity]. cbn [option_map].
      destruct (pointwise g l r) as [zs|]; [|reflexivity]. exact (lib_prepend _ _ L z zs).
  Qed.

  (** *** dissolve_selection_two_args *)
  Lemma dissolve_pointwise h g p q :
    (forall x y, i_call I h [VInt x; VInt y; VInt p; VInt q] = option_map VInt (g x y)) ->
    defines I dissolve_selection_two_args -> forall l r, List.length l = List.length r ->
    i_call I "dissolve_selection_two_args" [vl l; vl r; VInt p; VInt q; VFn h] = option_map vl (pointwise g l r).
  Proof.
    intros G D. induction l as [|x l IH]; intros r E0.
    - destruct r; [|discriminate]. destruct (D [vl []; vl []; VInt p; VInt q; VFn h]) as (r0 & B & E).
      { constructor; [now exists []|]. constructor; [now exists []|]. constructor; [now exists p|].
        constructor; [now exists q|]. constructor; [now exists h|]. constructor. }
      cbn in B. injection B as <-. rewrite E. cbn. rewrite (lib_len _ _ L []). cbn. apply (lib_empty _ _ L).
    - destruct r as [|y r]; [discriminate|]. injection E0 as E0.
      destruct (D [vl (x :: l); vl (y :: r); VInt p; VInt q; VFn h]) as (r0 & B & E).
      { constructor; [now exists (x :: l)|]. constructor; [now exists (y :: r)|]. constructor; [now exists p|].
        constructor; [now exists q|]. constructor; [now exists h|]. constructor. }
      cbn in B. injection B as <-. cbn -[vl zlen] in E.
      rewrite !(lib_len _ _ L), (lib_get0 _ _ L x l), (lib_get0 _ _ L y r), (lib_tail1 _ _ L x l), (lib_tail1 _ _ L y r) in E.
      cbn -[vl zlen] in E. rewrite lt1_cons, zlen_cons_eqb, G, IH in E by exact E0.
      unfold zlen at 1 2 in E. rewrite E0, Z.eqb_refl in E. cbn -[vl zlen] in E. rewrite E. clear E.
      rewrite pointwise_cons. destruct (g x y) as [z|]; [|reflexivity]. cbn [option_map].
      destruct (pointwise g l r) as [zs|]; [|reflexivity]. exact (lib_prepend _ _ L z zs).
  Qed.

  (** ** reductions *)
  Lemma reduce_sum_is : defines I reduce_sum -> forall l,
    i_call I "reduce_sum" [vl l] = Some (VInt (fold_right Z.add 0 l)).
  Proof.
    intros D. induction l as [|x l IH].
    - destruct (D [vl []]) as (r0 & B & E). { constructor; [now exists []|]. constructor. }
      cbn in B. injection B as <-. rewrite E. cbn. rewrite (lib_len _ _ L []). reflexivity.
    - destruct (D [vl (x :: l)]) as (r0 & B & E). { constructor; [now exists (x :: l)|]. constructor. }
      cbn in B. injection B as <-. cbn -[vl zlen] in E.
      rewrite (lib_len _ _ L), (lib_get0 _ _ L x l), (lib_tail1 _ _ L x l) in E.
      cbn -[vl zlen] in E. rewrite lt1_cons, IH in E. exact E.
  Qed.

  Lemma reduce_mul_is : defines I reduce_mul -> forall l,
    i_call I "reduce_mul" [vl l] = Some (VInt (fold_right Z.mul 1 l)).
  Proof.
    intros D. induction l as [|x l IH].
    - destruct (D [vl []]) as (r0 & B & E). { constructor; [now exists []|]. constructor. }
      cbn in B. injection B as <-. rewrite E. cbn. rewrite (lib_len _ _ L []). reflexivity.
    - destruct (D [vl (x :: l)]) as (r0 & B & E). { constructor; [now exists (x :: l)|]. constructor. }
      cbn in B. injection B as <-. cbn -[vl zlen] in E.
      rewrite (lib_len _ _ L), (lib_get0 _ _ L x l), (lib_tail1 _ _ L x l) in E.
      cbn -[vl zlen] in E. rewrite lt1_cons, IH in E. exact E.
  Qed.

  (** what [reduce_max] computes *)
  Fixpoint maxval (x : Z) (l : list Z) : Z := match l with [] => x | y :: r => Z.max x (maxval y r) end.

  Lemma reduce_max_is : defines I reduce_max -> forall l,
    i_call I "reduce_max" [vl l] = Some (VInt (match l with [] => -32 | x :: r => maxval x r end)).
  Proof.
    intros D. induction l as [|x l IH].
    - destruct (D [vl []]) as (r0 & B & E). { constructor; [now exists []|]. constructor. }
      cbn in B. injection B as <-. rewrite E. cbn. rewrite (lib_len _ _ L []). reflexivity.
    - destruct (D [vl (x :: l)]) as (r0 & B & E). { constructor; [now exists (x :: l)|]. constructor. }
      cbn in B. injection B as <-. cbn -[vl zlen] in E.
      rewrite (lib_len _ _ L), (lib_get0 _ _ L x l), (lib_tail1 _ _ L x l) in E.
      cbn -[vl zlen] in E. rewrite lt1_cons, IH in E.
      destruct l as [|y r]; [exact E|].
      destruct (Z.eqb_spec (zlen (x :: y :: r)) 1) as [A|_]; [unfold zlen in A; simpl List.length in A; lia|].
      cbn -[vl] in E. rewrite E. cbn [maxval].
      destruct (Z.ltb_spec (maxval y r) x); f_equal; f_equal; lia.
  Qed.

  (** the dot product *)
  Definition dot (r v : list Z) : Z := fold_right Z.add 0 (map (fun p => fst p * snd p) (combine r v)).

  Lemma pointwise_total (g : Z -> Z -> Z) l r :
    pointwise (fun x y => Some (g x y)) l r = Some (map (fun p => g (fst p) (snd p)) (combine l r)).
  Proof. unfold pointwise. induction (combine l r); [reflexivity|]. cbn [mapO map]. now rewrite IHl0. Qed.

  (** rows that can be multiplied with [v], up to the first one that cannot *)
  Fixpoint good_rows (m : list (list Z)) (v : list Z) : list (list Z) :=
    match m with
    | [] => []
    | r :: m' => if (zlen r <? 1) || negb (zlen r =? zlen v) then [] else r :: good_rows m' v
    end.

  Lemma vec_elem_mul : defines I vec_elemwise_mul -> forall l r, List.length l = List.length r ->
    i_call I "vec_elemwise_mul" [vl l; vl r] = Some (vl (map (fun p => fst p * snd p) (combine l r))).
  Proof.
    intros D l r E.
    rewrite (vec_elem_pointwise "vec_elemwise_mul" "matrix_elemwise_mul" "tensor3d_elemwise_mul" KMul) by
      (auto; right; right; now left).
    change (arith I KMul) with (fun x y => Some (x * y)). now rewrite pointwise_total.
  Qed.

  Lemma matrix_vec_mul_is : defines I vec_elemwise_mul -> defines I reduce_sum -> defines I matrix_vec_mul ->
    forall m v, i_call I "matrix_vec_mul" [vm m; vl v] = Some (vl (map (fun r => dot r v) (good_rows m v))).
  Proof.
    intros D1 D2 D m v. induction m as [|r m IH].
    - destruct (D [vm []; vl v]) as (r0 & B & E).
      { constructor; [now exists []|]. constructor; [now exists v|]. constructor. }
      cbn in B. injection B as <-. rewrite E. cbn -[vl vm zlen]. destruct (lib_mget_nil _ _ L) as (w & W).
      rewrite (lib_mlen _ _ L), W, !(lib_len _ _ L). cbn -[vl vm]. apply (lib_empty _ _ L).
    - destruct (D [vm (r :: m); vl v]) as (r0 & B & E).
      { constructor; [now exists (r :: m)|]. constructor; [now exists v|]. constructor. }
      cbn in B. injection B as <-. cbn -[vl vm zlen] in E.
      rewrite (lib_mlen _ _ L), (lib_mget0 _ _ L), !(lib_len _ _ L), (lib_mtail1 _ _ L), IH in E.
      cbn -[vl vm zlen] in E. rewrite lt1_cons, !orb_false_r in E. cbn [orb] in E. rewrite E. clear E.
      cbn [good_rows]. destruct ((zlen r <? 1) || negb (zlen r =? zlen v)) eqn:C; [apply (lib_empty _ _ L)|].
      apply orb_false_iff in C as [_ C]. apply negb_false_iff, Z.eqb_eq in C. unfold zlen in C.
      rewrite (vec_elem_mul D1) by lia. rewrite (reduce_sum_is D2). exact (lib_prepend _ _ L _ _).
  Qed.

  (** ** matrices *)
  Definition mat_elem (fv fm ft : string) (k : kind) : res expr :=
    b <- elemwise_body v_mx v_my (op k) fv fm ft ;; fn_decl_recursive fm (TMatrix TInt) b [v_mx; v_my].

  Lemma mat_elem_unfold fv fm ft k : arith_kind k -> defines I (mat_elem fv fm ft k) -> forall m n,
    i_call I fm [vm m; vm n] =
    if (zlen m <? 1) || negb (zlen m =? zlen n) then Some (vm [])
    else match m, n with
         | x :: m', y :: n' =>
             match i_call I fv [vl x; vl y], i_call I fm [vm m'; vm n'] with
             | Some z, Some v => i_call I "matrix_prepend" [z; v]
             | _, _ => None
             end
         | _, _ => None
         end.
  Proof.
    intros K D m n.
    assert (D' : exists r0, bind_params [o_src v_mx; o_src v_my] [vm m; vm n] = Some r0 /\
       i_call I fm [vm m; vm n] = eval I r0 (match mat_elem fv fm ft k with
          Ok (Node _ _ (_ :: b :: _)) => b | _ => Atom PNone end)).
    { destruct K as [->|[->|[->| ->]]]; refine (D [vm m; vm n] _);
        (constructor; [now exists m|]; constructor; [now exists n|]; constructor). }
    clear D. destruct D' as (r0 & B & E). cbn in B. injection B as <-. rewrite E. clear E.
    cbn -[vl vm zlen].
    rewrite (lib_mlen _ _ L m), (lib_mlen _ _ L n); cbn -[vl vm zlen].
    rewrite (lib_mempty _ _ L), ?orb_false_r.
    destruct ((zlen m <? 1) || negb (zlen m =? zlen n)) eqn:C; [reflexivity|].
    apply orb_false_iff in C as [C1 C2]; apply negb_false_iff, Z.eqb_eq in C2.
    destruct m as [|x m']; [discriminate C1|]; destruct n as [|y n']; [discriminate C2|].
    rewrite (lib_mget0 _ _ L x m'), (lib_mget0 _ _ L y n'), (lib_mtail1 _ _ L x m'), (lib_mtail1 _ _ L y n').
    cbn -[vl vm zlen]. destruct (i_call I fv [vl x; vl y]); [|reflexivity].
    destruct (i_call I fm [vm m'; vm n']); reflexivity.
  Qed.

  (** row by row, whatever the vector function is *)
  Definition rowwise (h : list Z -> list Z -> option (list Z)) (m n : list (list Z)) : option (list (list Z)) :=
    mapO (fun p => h (fst p) (snd p)) (combine m n).

  Lemma rowwise_cons h x m y n : rowwise h (x :: m) (y :: n) =
    match h x y with Some z => match rowwise h m n with Some zs => Some (z :: zs) | None => None end | None => None end.
  Proof. reflexivity. Qed.

  (** the matrices have the same shape, and (unless [e]) no empty row *)
  Definition same_shape (m n : list (list Z)) : Prop :=
    Forall2 (fun r s => List.length r = List.length s /\ (e = true \/ r <> [])) m n.

  Lemma same_shape_length m n : same_shape m n -> List.length m = List.length n.
  Proof. induction 1; simpl; auto. Qed.

  Lemma pointwise_nonempty g x l r zs : List.length (x :: l) = List.length r -> pointwise g (x :: l) r = Some zs -> zs <> [].
  Proof.
    destruct r; [discriminate|]. intros _. rewrite pointwise_cons. destruct (g x z); [|discriminate].
    destruct (pointwise g l r); [|discriminate]. intros [= <-]. discriminate.
  Qed.

  Lemma mat_elem_rowwise fv fm ft k f2 f3 : arith_kind k ->
    defines I (vec_elem fv f2 f3 k) -> defines I (mat_elem fv fm ft KAdd) ->
    forall m n, same_shape m n ->
    i_call I fm [vm m; vm n] = option_map vm (rowwise (pointwise (arith I k)) m n).
  Proof.
    intros K Dv D. induction 1 as [|x y m n [E NE] S IH]; rewrite (mat_elem_unfold fv fm ft KAdd (or_introl eq_refl) D).
    - reflexivity.
    - rewrite lt1_cons, zlen_cons_eqb. pose proof (same_shape_length _ _ S) as E2.
      unfold zlen at 1 2. rewrite E2, Z.eqb_refl. cbn [orb negb].
      rewrite IH, (vec_elem_pointwise fv f2 f3 k K Dv) by exact E. rewrite rowwise_cons.
      destruct (pointwise (arith I k) x y) as [zs|] eqn:P; [|reflexivity]. cbn [option_map].
      destruct (rowwise _ m n) as [ms|]; [|reflexivity]. cbn [option_map].
      apply (lib_mprepend _ _ L). destruct NE as [NE|NE]; [now left|right].
      destruct x; [congruence|]. eapply pointwise_nonempty; eauto.
  Qed.

  Definition mat_scal (fv fm : string) (cf : obj -> obj -> res obj) : res expr :=
    b <- scalar_body v_a v_mx cf fv fm ;; fn_decl_recursive fm (TMatrix TInt) b [v_a; v_mx].

  Lemma mat_scal_unfold fv fm cf : defines I (mat_scal fv fm cf) -> forall a m,
    i_call I fm [VInt a; vm m] =
    match m with
    | [] => Some (vm [])
    | x :: m' =>
        match i_call I fv [VInt a; vl x], i_call I fm [VInt a; vm m'] with
        | Some z, Some v => i_call I "matrix_prepend" [z; v]
        | _, _ => None
        end
    end.
  Proof.
    intros D a m. destruct (D [VInt a; vm m]) as (r0 & B & E).
    { constructor; [now exists a|]; constructor; [now exists m|]; constructor. }
    cbn in B. injection B as <-. rewrite E. clear E. cbn -[vl vm zlen].
    rewrite (lib_mlen _ _ L m), (lib_mempty _ _ L); cbn -[vl vm zlen].
    destruct m as [|x m']; [reflexivity|].
    rewrite lt1_cons, (lib_mget0 _ _ L x m'), (lib_mtail1 _ _ L x m'). cbn -[vl vm zlen].
    destruct (i_call I fv [VInt a; vl x]); [|reflexivity]. destruct (i_call I fm [VInt a; vm m']); reflexivity.
  Qed.

  Lemma mapO_nonempty {A B} (g : A -> option B) x l zs : mapO g (x :: l) = Some zs -> zs <> [].
  Proof.
    cbn [mapO]. destruct (g x); [|discriminate]. destruct (mapO g l); [|discriminate]. intros [= <-]. discriminate.
  Qed.

  Lemma mat_scal_rowwise fv fm f2 k sw cf : arith_kind k ->
    defines I (vec_scal fv f2 (scal k sw)) -> defines I (mat_scal fv fm cf) ->
    forall a m, e = true \/ Forall (fun r => r <> []) m ->
    i_call I fm [VInt a; vm m] = option_map vm (mapO (mapO (scal_val k sw a)) m).
  Proof.
    intros K Dv D a. induction m as [|x m IH]; intros NE; rewrite (mat_scal_unfold fv fm cf D); [reflexivity|].
    rewrite IH, (vec_scal_pointwise fv f2 k sw K Dv).
    2:{ destruct NE as [NE|NE]; [now left | right; now inversion NE]. }
    cbn [mapO]. destruct (mapO (scal_val k sw a) x) as [zs|] eqn:P; [|reflexivity]. cbn [option_map].
    destruct (mapO (mapO (scal_val k sw a)) m) as [ms|]; [|reflexivity]. cbn [option_map].
    apply (lib_mprepend _ _ L). destruct NE as [NE|NE]; [now left | right].
    inversion NE; subst. destruct x; [congruence|]. eapply mapO_nonempty; eauto.
  Qed.

  Lemma matrix_selection_rowwise h g : (forall x y, i_call I h [VInt x; VInt y] = option_map VInt (g x y)) ->
    defines I selection_two_args -> defines I matrix_selection_two_args -> forall m n, same_shape m n ->
    i_call I "matrix_selection_two_args" [vm m; vm n; VFn h] = option_map vm (rowwise (pointwise g) m n).
  Proof.
    intros G Dv D. induction 1 as [|x y m n [E0 NE] S IH].
    - destruct (D [vm []; vm []; VFn h]) as (r0 & B & E).
      { constructor; [now exists []|]. constructor; [now exists []|]. constructor; [now exists h|]. constructor. }
      cbn in B. injection B as <-. rewrite E. cbn. rewrite (lib_mlen _ _ L []). cbn. apply (lib_mempty _ _ L).
    - destruct (D [vm (x :: m); vm (y :: n); VFn h]) as (r0 & B & E).
      { constructor; [now exists (x :: m)|]. constructor; [now exists (y :: n)|]. constructor; [now exists h|]. constructor. }
      cbn in B. injection B as <-. cbn -[vl vm zlen] in E.
      rewrite !(lib_mlen _ _ L), (lib_mget0 _ _ L x m), (lib_mget0 _ _ L y n), (lib_mtail1 _ _ L x m), (lib_mtail1 _ _ L y n) in E.
      cbn -[vl vm zlen] in E. pose proof (same_shape_length _ _ S) as E2.
      rewrite lt1_cons, zlen_cons_eqb, IH, (selection_pointwise h g G Dv) in E by exact E0.
      unfold zlen at 1 2 in E. rewrite E2, Z.eqb_refl in E. cbn -[vl vm zlen] in E. rewrite E. clear E.
      rewrite rowwise_cons. destruct (pointwise g x y) as [z|] eqn:P; [|reflexivity]. cbn [option_map].
      destruct (rowwise _ m n) as [zs|]; [|reflexivity]. apply (lib_mprepend _ _ L).
      destruct NE as [NE|NE]; [now left | right]. destruct x; [congruence|]. eapply pointwise_nonempty; eauto.
  Qed.

  Lemma dissolve_matrix_rowwise h g p q :
    (forall x y, i_call I h [VInt x; VInt y; VInt p; VInt q] = option_map VInt (g x y)) ->
    defines I dissolve_selection_two_args -> defines I dissolve_matrix_selection_two_args ->
    forall m n, same_shape m n ->
    i_call I "dissolve_matrix_selection_two_args" [vm m; vm n; VInt p; VInt q; VFn h] =
    option_map vm (rowwise (pointwise g) m n).
  Proof.
    intros G Dv D. induction 1 as [|x y m n [E0 NE] S IH].
    - destruct (D [vm []; vm []; VInt p; VInt q; VFn h]) as (r0 & B & E).
      { constructor; [now exists []|]. constructor; [now exists []|]. constructor; [now exists p|].
        constructor; [now exists q|]. constructor; [now exists h|]. constructor. }
      cbn in B. injection B as <-. rewrite E. cbn. rewrite (lib_mlen _ _ L []). cbn. apply (lib_mempty _ _ L).
    - destruct (D [vm (x :: m); vm (y :: n); VInt p; VInt q; VFn h]) as (r0 & B & E).
      { constructor; [now exists (x :: m)|]. constructor; [now exists (y :: n)|]. constructor; [now exists p|].
        constructor; [now exists q|]. constructor; [now exists h|]. constructor. }
      cbn in B. injection B as <-. cbn -[vl vm zlen] in E.
      rewrite !(lib_mlen _ _ L), (lib_mget0 _ _ L x m), (lib_mget0 _ _ L y n), (lib_mtail1 _ _ L x m), (lib_mtail1 _ _ L y n) in E.
      cbn -[vl vm zlen] in E. pose proof (same_shape_length _ _ S) as E2.
      rewrite lt1_cons, zlen_cons_eqb, IH, (dissolve_pointwise h g p q G Dv) in E by exact E0.
      unfold zlen at 1 2 in E. rewrite E2, Z.eqb_refl in E. cbn -[vl vm zlen] in E. rewrite E. clear E.
      rewrite rowwise_cons. destruct (pointwise g x y) as [z|] eqn:P; [|reflexivity]. cbn [option_map].
      destruct (rowwise _ m n) as [zs|]; [|reflexivity]. apply (lib_mprepend _ _ L).
      destruct NE as [NE|NE]; [now left | right]. destruct x; [congruence|]. eapply pointwise_nonempty; eauto.
  Qed.
End Vec.
