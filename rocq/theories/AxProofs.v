(** Proofs about the lemmas of axioms.py. *)

From Coq Require Import String List ZArith Bool Lia.
From Verif Require Import Ast Semantics IrProofs5 SmtPrelude SmtProofs RktModel ListOps UtilModel ObjModel TensModel LibSem
  TensProofs.
Import ListNotations.
Local Open Scope string_scope.
Local Open Scope Z_scope.

(** ** specification *)

(** an interpretation of the IR in a model [S] of the solver's prelude *)
Record smt_model (S : smt) (I : interp) : Prop := {
  sm_core : prelude_core S;
  sm_lists : follows (smt_apply S) I;
  sm_div : forall a b, i_div I a b = Some (smt_div S a b) }.

(** the variables of an axiom have values of their types *)
Definition typed (r : env) (vars : list expr) : Prop :=
  Forall (fun v => match v with
                   | Node KVar t [Atom (PStr x)] => exists w, r x = Some w /\ has_ty w t
                   | _ => False
                   end) vars.

(** the axiom is true for all values of its variables that satisfy [P] *)
Definition axiom_holds_when (P : env -> Prop) (I : interp) (ax : res expr) : Prop :=
  match ax with
  | Ok (Node KAxiom _ (e :: vars)) => forall r, typed r vars -> P r -> eval I r e = Some (VBool true)
  | _ => False
  end.
(** the solver is told that the axiom is true for all values of its variables *)
Definition axiom_holds (I : interp) (ax : res expr) : Prop := axiom_holds_when (fun _ => True) I ax.

(** the range for which the axioms are theorems *)
Definition index_from_1 (r : env) : Prop := exists i, r "index" = Some (VInt i) /\ 1 <= i.

(** ** proofs *)

Definition velem {A B} (g : A -> A -> B) (l r : list A) : list B :=
  if Nat.eqb (List.length l) (List.length r) then map (fun p => g (fst p) (snd p)) (combine l r) else [].

Lemma velem_step {A B} (g : A -> A -> B) x l y r : List.length l = List.length r ->
  velem g (x :: l) (y :: r) = g x y :: velem g l r.
Proof. intros E. unfold velem. simpl. rewrite E, Nat.eqb_refl. reflexivity. Qed.

Section Ax.
  Variables (S : smt) (I : interp).
  Hypothesis M : smt_model S I.
  Let HI := core_li S (sm_core _ _ M).
  Let HM := core_lm S (sm_core _ _ M).
  Let F := sm_lists _ _ M.
  Let L := smt_list_lib S I (sm_core _ _ M) F.

  Lemma c_take l i : i_call I "list_take" [vl l; VInt i] = Some (vl (firstn (Z.to_nat i) l)).
  Proof. fol (F "list_take" [DL l; DZ i] _ eq_refl). now rewrite (take_is _ HI). Qed.
  Lemma c_mtake m i : i_call I "matrix_take" [vm m; VInt i] = Some (vm (firstn (Z.to_nat i) m)).
  Proof. fol (F "matrix_take" [DM m; DZ i] _ eq_refl). now rewrite (take_is _ HM). Qed.
  Lemma c_slice l a b : i_call I "vec_slice" [vl l; VInt a; VInt b] = Some (vl (skipn (Z.to_nat a) (firstn (Z.to_nat b) l))).
  Proof. fol (F "vec_slice" [DL l; DZ a; DZ b] _ eq_refl). now rewrite (vec_slice_is S (sm_core _ _ M)). Qed.
  Lemma c_mslice m a b : i_call I "matrix_row_slice" [vm m; VInt a; VInt b] = Some (vm (skipn (Z.to_nat a) (firstn (Z.to_nat b) m))).
  Proof. fol (F "matrix_row_slice" [DM m; DZ a; DZ b] _ eq_refl). now rewrite (row_slice_is S (sm_core _ _ M)). Qed.
  Lemma c_get l i : i_call I "list_get" [vl l; VInt i] = Some (VInt (SmtPrelude.list_get S l i)).
  Proof. exact (F "list_get" [DL l; DZ i] _ eq_refl). Qed.
  Lemma c_mget m i : i_call I "matrix_get" [vm m; VInt i] = Some (vl (matrix_get S m i)).
  Proof. exact (F "matrix_get" [DM m; DZ i] _ eq_refl). Qed.
  Lemma c_prepend x l : i_call I "list_prepend" [VInt x; vl l] = Some (vl (x :: l)).
  Proof. exact (lib_prepend _ _ L x l). Qed.
  Lemma c_mprepend x l : i_call I "matrix_prepend" [vl x; vm l] = Some (vm (x :: l)).
  Proof. apply (lib_mprepend _ _ L x l). now left. Qed.
  Lemma c_len l : i_call I "list_length" [vl l] = Some (VInt (zlen l)).
  Proof. exact (lib_len _ _ L l). Qed.
  Lemma c_mlen l : i_call I "matrix_length" [vm l] = Some (VInt (zlen l)).
  Proof. exact (lib_mlen _ _ L l). Qed.
  Lemma c_eq l l' : exists b, i_call I "list_eq" [vl l; vl l'] = Some (VBool b) /\ (b = true <-> l = l').
  Proof.
    fol (F "list_eq" [DL l; DL l'] _ eq_refl). eexists. split; [reflexivity|].
    destruct (list_eq_dec Z.eq_dec l l'); split; congruence.
  Qed.
  Lemma c_meq l l' : exists b, i_call I "list_eq" [vm l; vm l'] = Some (VBool b) /\ (b = true <-> l = l').
  Proof.
    fol (F "list_eq" [DM l; DM l'] _ eq_refl). eexists. split; [reflexivity|].
    destruct (list_eq_dec (list_eq_dec Z.eq_dec) l l'); split; congruence.
  Qed.

  Lemma get0_hd x l : SmtPrelude.list_get S (x :: l) 0 = x.
  Proof. apply get0, (sm_core _ _ M). Qed.
  Lemma mget0_hd x l : matrix_get S (x :: l) 0 = x.
  Proof. apply mget0, (sm_core _ _ M). Qed.

  Definition arith_t (k : kind) (x y : Z) : Z :=
    match k with KAdd => x + y | KSub => x - y | KMul => x * y | _ => smt_div S x y end.

  Lemma arith_total k x y : arith_kind k -> arith I k x y = Some (arith_t k x y).
  Proof. intros [->|[->|[->| ->]]]; try reflexivity. apply (sm_div _ _ M). Qed.

  Lemma mapO_total {A B} (f : A -> option B) g l : (forall a, f a = Some (g a)) -> mapO f l = Some (map g l).
  Proof. intros E. induction l; [reflexivity|]. cbn [mapO map]. now rewrite E, IHl. Qed.

  Lemma c_velem f f2 f3 k : arith_kind k -> defines I (vec_elem f f2 f3 k) -> forall l r,
    i_call I f [vl l; vl r] = Some (vl (velem (arith_t k) l r)).
  Proof.
    intros K D l r. unfold velem. destruct (Nat.eqb_spec (List.length l) (List.length r)).
    - rewrite (vec_elem_pointwise _ _ L f f2 f3 k K D) by auto. unfold pointwise.
      erewrite mapO_total; [reflexivity|]. intros. now apply arith_total.
    - rewrite (vec_elem_mismatch _ _ L f f2 f3 k K D) by auto. reflexivity.
  Qed.

  Lemma c_melem fv fm ft f2 f3 k : arith_kind k -> defines I (vec_elem fv f2 f3 k) -> defines I (mat_elem fv fm ft KAdd) ->
    forall m n, i_call I fm [vm m; vm n] = Some (vm (velem (velem (arith_t k)) m n)).
  Proof.
    intros K Dv D. induction m as [|x m IH]; intros n; rewrite (mat_elem_unfold _ _ L fv fm ft KAdd (or_introl eq_refl) D).
    - unfold velem at 1. destruct n; reflexivity.
    - destruct n as [|y n]; [rewrite lt1_cons; reflexivity|]. rewrite lt1_cons, zlen_cons_eqb. cbn [orb].
      destruct (Z.eqb_spec (zlen m) (zlen n)) as [E|E]; unfold zlen in E; cbn [negb].
      + rewrite (c_velem fv f2 f3 k K Dv), IH, velem_step by lia. apply c_mprepend.
      + unfold velem at 1. simpl. destruct (Nat.eqb_spec (List.length m) (List.length n)); [lia | reflexivity].
  Qed.

  Definition scal_t (k : kind) (sw : bool) (a x : Z) : Z := if sw then arith_t k x a else arith_t k a x.

  Lemma c_vscal f f2 k sw : arith_kind k -> defines I (vec_scal f f2 (scal k sw)) -> forall a l,
    i_call I f [VInt a; vl l] = Some (vl (map (scal_t k sw a) l)).
  Proof.
    intros K D a l. rewrite (vec_scal_pointwise _ _ L f f2 k sw K D). erewrite mapO_total; [reflexivity|].
    intros x. unfold scal_val, scal_t. destruct sw; now apply arith_total.
  Qed.

  Lemma c_mscal fv fm f2 k sw cf : arith_kind k -> defines I (vec_scal fv f2 (scal k sw)) -> defines I (mat_scal fv fm cf) ->
    forall a m, i_call I fm [VInt a; vm m] = Some (vm (map (map (scal_t k sw a)) m)).
  Proof.
    intros K Dv D a m. rewrite (mat_scal_rowwise _ _ L fv fm f2 k sw cf K Dv D) by (now left).
    erewrite mapO_total; [reflexivity|]. intros l. erewrite mapO_total; [reflexivity|].
    intros x. unfold scal_val, scal_t. destruct sw; now apply arith_total.
  Qed.

  (** the common argument: for an index from 1 on, the first element can be split
      off; for index 0 it cannot *)
  Definition hyp2 (n1 n2 i : Z) : bool := (0 <=? i) && (i <? n1) && (n1 =? n2).
  Definition hyp1 (n1 i : Z) : bool := (0 <=? i) && (i <? n1).

  Lemma first_step {A} (x : A) l i : 1 <= i ->
    firstn (Z.to_nat i) (x :: l) = x :: skipn (Z.to_nat 1) (firstn (Z.to_nat i) (x :: l)).
  Proof.
    intros Hi. destruct (Z.to_nat i) as [|n] eqn:E; [lia|]. reflexivity.
  Qed.

  Lemma elem_step {A B} (g : A -> A -> B) l r i d : 1 <= i -> i < zlen l -> zlen l = zlen r ->
    velem g (firstn (Z.to_nat i) l) (firstn (Z.to_nat i) r) =
    g (hd d l) (hd d r) :: velem g (skipn (Z.to_nat 1) (firstn (Z.to_nat i) l)) (skipn (Z.to_nat 1) (firstn (Z.to_nat i) r)).
  Proof.
    intros H1 H2 H3. destruct l as [|x l]; [unfold zlen in *; simpl in *; lia|].
    destruct r as [|y r]; [unfold zlen in *; simpl in *; lia|]. unfold zlen in *. simpl List.length in *.
    rewrite (first_step x l i H1), (first_step y r i H1). rewrite velem_step; [reflexivity|].
    destruct (Z.to_nat i) as [|n] eqn:E; [lia|]. simpl. rewrite !firstn_length. lia.
  Qed.

  Lemma map_step {A B} (g : A -> B) l i d : 1 <= i -> i < zlen l ->
    map g (firstn (Z.to_nat i) l) = g (hd d l) :: map g (skipn (Z.to_nat 1) (firstn (Z.to_nat i) l)).
  Proof.
    intros H1 H2. destruct l as [|x l]; [unfold zlen in *; simpl in *; lia|]. rewrite (first_step x l i H1). reflexivity.
  Qed.

  Lemma get0_is l : l <> [] -> SmtPrelude.list_get S l 0 = hd 0 l.
  Proof. destruct l; [congruence|]. intros _. apply get0_hd. Qed.
  Lemma mget0_is l : l <> [] -> matrix_get S l 0 = hd [] l.
  Proof. destruct l; [congruence|]. intros _. apply mget0_hd. Qed.
  Lemma zlen_ne {A} (l : list A) i : 0 <= i -> i < zlen l -> l <> [].
  Proof. intros. destruct l; [unfold zlen in *; simpl in *; lia | discriminate]. Qed.

  (** *** evaluation of the elementwise axioms *)
  Lemma eval_elem_axiom f k ax : arith_kind k -> (forall l r, i_call I f [vl l; vl r] = Some (vl (velem (arith_t k) l r))) ->
    elemwise_axiom f (TList TInt) (op k) ax_a ax_b = ax ->
    match ax with
    | Ok (Node KAxiom _ (e :: vars)) =>
        vars = [o_src ax_a; o_src ax_b; o_src ax_index] /\
        forall r l l' i, r "a" = Some (vl l) -> r "b" = Some (vl l') -> r "index" = Some (VInt i) ->
        exists b, eval I r e = Some (VBool (implb (hyp2 (zlen l) (zlen l') i) b)) /\
        (b = true <-> velem (arith_t k) (firstn (Z.to_nat i) l) (firstn (Z.to_nat i) l') =
           arith_t k (SmtPrelude.list_get S l 0) (SmtPrelude.list_get S l' 0) ::
           velem (arith_t k) (skipn (Z.to_nat 1) (firstn (Z.to_nat i) l)) (skipn (Z.to_nat 1) (firstn (Z.to_nat i) l')))
    | _ => False
    end.
  Proof.
    intros K HF <-.
    pose proof (fun l l' i => c_eq (velem (arith_t k) (firstn (Z.to_nat i) l) (firstn (Z.to_nat i) l'))
       (arith_t k (SmtPrelude.list_get S l 0) (SmtPrelude.list_get S l' 0) ::
           velem (arith_t k) (skipn (Z.to_nat 1) (firstn (Z.to_nat i) l)) (skipn (Z.to_nat 1) (firstn (Z.to_nat i) l')))) as EQ.
    destruct K as [->|[->|[->| ->]]]; (split; [reflexivity|]); intros r l l' i Ha Hb Hi;
    (destruct (EQ l l' i) as (b & E & B); exists b; split; [|exact B]);
    cbn -[vl zlen velem arith_t Z.to_nat Z.leb Z.ltb Z.eqb]; rewrite Ha, Hb, Hi; cbn -[vl zlen velem arith_t Z.to_nat Z.leb Z.ltb Z.eqb];
    rewrite !c_len, !c_take, !c_slice, !c_get, !HF; cbn -[vl zlen velem arith_t Z.to_nat Z.leb Z.ltb Z.eqb];
    rewrite ?(sm_div _ _ M); cbn -[vl zlen velem arith_t Z.to_nat Z.leb Z.ltb Z.eqb];
    rewrite c_prepend; cbn [arith_t] in E; rewrite E; unfold hyp2; rewrite !andb_true_r; reflexivity.
  Qed.

  (** the same for a function on matrices whose rows are computed by [fv] *)
  Lemma eval_melem_axiom fm fv FM (G : list Z -> list Z -> list Z) ax :
    (forall m n, i_call I fm [vm m; vm n] = Some (vm (FM m n))) ->
    (forall l r, i_call I fv [vl l; vl r] = Some (vl (G l r))) ->
    elemwise_axiom fm (TMatrix TInt) (vcall fv) ax_x ax_y = ax ->
    match ax with
    | Ok (Node KAxiom _ (e :: vars)) =>
        vars = [o_src ax_x; o_src ax_y; o_src ax_index] /\
        forall r l l' i, r "x" = Some (vm l) -> r "y" = Some (vm l') -> r "index" = Some (VInt i) ->
        exists b, eval I r e = Some (VBool (implb (hyp2 (zlen l) (zlen l') i) b)) /\
        (b = true <-> FM (firstn (Z.to_nat i) l) (firstn (Z.to_nat i) l') =
           G (matrix_get S l 0) (matrix_get S l' 0) ::
           FM (skipn (Z.to_nat 1) (firstn (Z.to_nat i) l)) (skipn (Z.to_nat 1) (firstn (Z.to_nat i) l')))
    | _ => False
    end.
  Proof.
    intros HM' HV <-. (split; [reflexivity|]); intros r l l' i Ha Hb Hi.
    destruct (c_meq (FM (firstn (Z.to_nat i) l) (firstn (Z.to_nat i) l'))
       (G (matrix_get S l 0) (matrix_get S l' 0) ::
           FM (skipn (Z.to_nat 1) (firstn (Z.to_nat i) l)) (skipn (Z.to_nat 1) (firstn (Z.to_nat i) l')))) as (b & E & B).
    exists b; split; [|exact B].
    cbn -[vl vm zlen Z.to_nat Z.leb Z.ltb Z.eqb]; rewrite Ha, Hb, Hi; cbn -[vl vm zlen Z.to_nat Z.leb Z.ltb Z.eqb].
    rewrite !c_mlen, !c_mtake, !c_mslice, !c_mget, !HM', !HV; cbn -[vl vm zlen Z.to_nat Z.leb Z.ltb Z.eqb].
    rewrite c_mprepend, E; unfold hyp2; rewrite !andb_true_r; reflexivity.
  Qed.

  (** the axiom schemes for a scalar and a vector / matrix *)
  Lemma eval_scal_axiom f k sw vars ax : arith_kind k ->
    (forall a l, i_call I f [VInt a; vl l] = Some (vl (map (scal_t k sw a) l))) ->
    scalar_axiom f (TList TInt) (scal k sw) ax_a vars = ax ->
    match ax with
    | Ok (Node KAxiom _ (e :: vs)) =>
        vs = map o_src vars /\
        forall r l c i, r "a" = Some (vl l) -> r "i" = Some (VInt c) -> r "index" = Some (VInt i) ->
        exists b, eval I r e = Some (VBool (implb (hyp1 (zlen l) i) b)) /\
        (b = true <-> map (scal_t k sw c) (firstn (Z.to_nat i) l) =
           scal_t k sw c (SmtPrelude.list_get S l 0) ::
           map (scal_t k sw c) (skipn (Z.to_nat 1) (firstn (Z.to_nat i) l)))
    | _ => False
    end.
  Proof.
    intros K HF <-.
    pose proof (fun l c i => c_eq (map (scal_t k sw c) (firstn (Z.to_nat i) l))
       (scal_t k sw c (SmtPrelude.list_get S l 0) ::
           map (scal_t k sw c) (skipn (Z.to_nat 1) (firstn (Z.to_nat i) l)))) as EQ.
    destruct K as [->|[->|[->| ->]]], sw; (split; [reflexivity|]); intros r l c i Ha Hb Hi;
    (destruct (EQ l c i) as (b & E & B); exists b; split; [|exact B]);
    cbn -[vl zlen scal_t Z.to_nat Z.leb Z.ltb Z.eqb]; rewrite Ha, Hb, Hi; cbn -[vl zlen scal_t Z.to_nat Z.leb Z.ltb Z.eqb];
    rewrite !c_len, !c_take, !c_slice, !c_get, !HF; cbn -[vl zlen scal_t Z.to_nat Z.leb Z.ltb Z.eqb];
    rewrite ?(sm_div _ _ M); cbn -[vl zlen scal_t Z.to_nat Z.leb Z.ltb Z.eqb];
    rewrite c_prepend; cbn [scal_t arith_t] in E; rewrite E; unfold hyp1; rewrite !andb_true_r; reflexivity.
  Qed.

  Lemma eval_mscal_axiom fm fv vars FM (G : Z -> list Z -> list Z) ax :
    (forall a m, i_call I fm [VInt a; vm m] = Some (vm (FM a m))) ->
    (forall a l, i_call I fv [VInt a; vl l] = Some (vl (G a l))) ->
    scalar_axiom fm (TMatrix TInt) (vcall fv) ax_x vars = ax ->
    match ax with
    | Ok (Node KAxiom _ (e :: vs)) =>
        vs = map o_src vars /\
        forall r l c i, r "x" = Some (vm l) -> r "i" = Some (VInt c) -> r "index" = Some (VInt i) ->
        exists b, eval I r e = Some (VBool (implb (hyp1 (zlen l) i) b)) /\
        (b = true <-> FM c (firstn (Z.to_nat i) l) =
           G c (matrix_get S l 0) :: FM c (skipn (Z.to_nat 1) (firstn (Z.to_nat i) l)))
    | _ => False
    end.
  Proof.
    intros HM' HV <-. (split; [reflexivity|]); intros r l c i Ha Hb Hi.
    destruct (c_meq (FM c (firstn (Z.to_nat i) l))
       (G c (matrix_get S l 0) :: FM c (skipn (Z.to_nat 1) (firstn (Z.to_nat i) l)))) as (b & E & B).
    exists b; split; [|exact B].
    cbn -[vl vm zlen Z.to_nat Z.leb Z.ltb Z.eqb]; rewrite Ha, Hb, Hi; cbn -[vl vm zlen Z.to_nat Z.leb Z.ltb Z.eqb].
    rewrite !c_mlen, !c_mtake, !c_mslice, !c_mget, !HM', !HV; cbn -[vl vm zlen Z.to_nat Z.leb Z.ltb Z.eqb].
    rewrite c_mprepend, E; unfold hyp1; rewrite !andb_true_r; reflexivity.
  Qed.

  (** *** the conclusion for each scheme *)
  Definition env3 (x : string) (u : val) (y : string) (v : val) (i : Z) : env :=
    upd (upd (upd (fun _ => None) x u) y v) "index" (VInt i).

  Lemma hyp2_true n1 n2 i : hyp2 n1 n2 i = true -> 0 <= i /\ i < n1 /\ n1 = n2.
  Proof. unfold hyp2. rewrite !andb_true_iff, Z.leb_le, Z.ltb_lt, Z.eqb_eq. tauto. Qed.
  Lemma hyp1_true n1 i : hyp1 n1 i = true -> 0 <= i /\ i < n1.
  Proof. unfold hyp1. rewrite !andb_true_iff, Z.leb_le, Z.ltb_lt. tauto. Qed.

  Definition good_axiom (ax : res expr) : Prop := axiom_holds_when index_from_1 I ax /\ ~ axiom_holds I ax.

  Lemma typed_l r x vs : typed r (o_src (list_var (TList TInt) x) :: vs) -> (exists l, r x = Some (vl l)) /\ typed r vs.
  Proof. intros T. inversion T as [|? ? A B]; subst. split; [|exact B]. cbn in A. destruct A as (w & A & l & ->). eauto. Qed.
  Lemma typed_m r x vs : typed r (o_src (list_var (TMatrix TInt) x) :: vs) -> (exists l, r x = Some (vm l)) /\ typed r vs.
  Proof. intros T. inversion T as [|? ? A B]; subst. split; [|exact B]. cbn in A. destruct A as (w & A & l & ->). eauto. Qed.
  Lemma typed_i r x vs : typed r (o_src (int_var x) :: vs) -> (exists l, r x = Some (VInt l)) /\ typed r vs.
  Proof. intros T. inversion T as [|? ? A B]; subst. split; [|exact B]. cbn in A. destruct A as (w & A & l & ->). eauto. Qed.

  Lemma elem_axiom_good f f2 f3 k : arith_kind k -> defines I (vec_elem f f2 f3 k) ->
    good_axiom (elemwise_axiom f (TList TInt) (op k) ax_a ax_b).
  Proof.
    intros K D. pose proof (eval_elem_axiom f k _ K (c_velem f f2 f3 k K D) eq_refl) as H.
    unfold good_axiom, axiom_holds, axiom_holds_when.
    destruct (elemwise_axiom f (TList TInt) (op k) ax_a ax_b) as [[|[] t [|e vars]]|]; try contradiction.
    destruct H as [-> H]. split.
    - intros r T (i & Hi & Gi). apply typed_l in T as [(l & V) T]. apply typed_l in T as [(l2 & V2) _].
      destruct (H r l l2 i V V2 Hi) as (b & -> & B). f_equal. f_equal.
      destruct (hyp2 (zlen l) (zlen l2) i) eqn:E; [|reflexivity]. cbn [implb]. apply B.
      apply hyp2_true in E as (E1 & E2 & E3).
      rewrite (elem_step _ l l2 i 0), !get0_is; auto; eapply zlen_ne; eauto; congruence.
    - intros A. set (r := env3 "a" (vl [0]) "b" (vl [0]) 0).
      destruct (H r [0] [0] 0 eq_refl eq_refl eq_refl) as (b & E & B).
      rewrite A in E; [|repeat constructor; cbn; eexists; (split; [reflexivity|]); cbn; eexists; reflexivity | exact Logic.I].
      cbn in E. injection E as <-. destruct B as [B _]. discriminate (B eq_refl).
  Qed.

  Lemma melem_axiom_good fm fv (G : list Z -> list Z -> list Z) :
    (forall m n, i_call I fm [vm m; vm n] = Some (vm (velem G m n))) ->
    (forall l r, i_call I fv [vl l; vl r] = Some (vl (G l r))) ->
    good_axiom (elemwise_axiom fm (TMatrix TInt) (vcall fv) ax_x ax_y).
  Proof.
    intros HM' HV. pose proof (eval_melem_axiom fm fv _ G _ HM' HV eq_refl) as H.
    unfold good_axiom, axiom_holds, axiom_holds_when.
    destruct (elemwise_axiom fm (TMatrix TInt) (vcall fv) ax_x ax_y) as [[|[] t [|e vars]]|]; try contradiction.
    destruct H as [-> H]. split.
    - intros r T (i & Hi & Gi). apply typed_m in T as [(l & V) T]. apply typed_m in T as [(l2 & V2) _].
      destruct (H r l l2 i V V2 Hi) as (b & -> & B). f_equal. f_equal.
      destruct (hyp2 (zlen l) (zlen l2) i) eqn:E; [|reflexivity]. cbn [implb]. apply B.
      apply hyp2_true in E as (E1 & E2 & E3).
      rewrite (elem_step _ l l2 i []), !mget0_is; auto; eapply zlen_ne; eauto; congruence.
    - intros A. set (r := env3 "x" (vm [[]]) "y" (vm [[]]) 0).
      destruct (H r [[]] [[]] 0 eq_refl eq_refl eq_refl) as (b & E & B).
      rewrite A in E; [|repeat constructor; cbn; eexists; (split; [reflexivity|]); cbn; eexists; reflexivity | exact Logic.I].
      cbn in E. injection E as <-. destruct B as [B _]. discriminate (B eq_refl).
  Qed.

  Lemma scal_axiom_good f f2 k sw vars : arith_kind k -> defines I (vec_scal f f2 (scal k sw)) ->
    vars = [ax_a; ax_i; ax_index] \/ vars = [ax_i; ax_a; ax_index] ->
    good_axiom (scalar_axiom f (TList TInt) (scal k sw) ax_a vars).
  Proof.
    intros K D HV. pose proof (eval_scal_axiom f k sw vars _ K (c_vscal f f2 k sw K D) eq_refl) as H.
    unfold good_axiom, axiom_holds, axiom_holds_when.
    destruct (scalar_axiom f (TList TInt) (scal k sw) ax_a vars) as [[|[] t [|e vs]]|]; try contradiction.
    destruct H as [-> H]. split.
    - intros r T (i & Hi & Gi).
      assert (T' : exists l c, r "a" = Some (vl l) /\ r "i" = Some (VInt c)).
      { destruct HV as [-> | ->].
        - apply typed_l in T as [(l & V) T]. apply typed_i in T as [(c & V2) _]. eauto.
        - apply typed_i in T as [(c & V2) T]. apply typed_l in T as [(l & V) _]. eauto. }
      destruct T' as (l & c & V & V2).
      destruct (H r l c i V V2 Hi) as (b & -> & B). f_equal. f_equal.
      destruct (hyp1 (zlen l) i) eqn:E; [|reflexivity]. cbn [implb]. apply B.
      apply hyp1_true in E as (E1 & E2).
      rewrite (map_step _ l i 0), !get0_is; auto; eapply zlen_ne; eauto.
    - intros A. set (r := env3 "a" (vl [0]) "i" (VInt 0) 0).
      destruct (H r [0] 0 0 eq_refl eq_refl eq_refl) as (b & E & B).
      rewrite A in E; [|destruct HV as [-> | ->]; repeat constructor; cbn; eexists; (split; [reflexivity|]); cbn; eexists; reflexivity | exact Logic.I].
      cbn in E. injection E as <-. destruct B as [B _]. discriminate (B eq_refl).
  Qed.

  Lemma mscal_axiom_good fm fv (G : Z -> list Z -> list Z) :
    (forall a m, i_call I fm [VInt a; vm m] = Some (vm (map (G a) m))) ->
    (forall a l, i_call I fv [VInt a; vl l] = Some (vl (G a l))) ->
    good_axiom (scalar_axiom fm (TMatrix TInt) (vcall fv) ax_x [ax_x; ax_i; ax_index]).
  Proof.
    intros HM' HV. pose proof (eval_mscal_axiom fm fv [ax_x; ax_i; ax_index] _ G _ HM' HV eq_refl) as H.
    unfold good_axiom, axiom_holds, axiom_holds_when.
    destruct (scalar_axiom fm (TMatrix TInt) (vcall fv) ax_x _) as [[|[] t [|e vars]]|]; try contradiction.
    destruct H as [-> H]. split.
    - intros r T (i & Hi & Gi). apply typed_m in T as [(l & V) T]. apply typed_i in T as [(c & V2) _].
      destruct (H r l c i V V2 Hi) as (b & -> & B). f_equal. f_equal.
      destruct (hyp1 (zlen l) i) eqn:E; [|reflexivity]. cbn [implb]. apply B.
      apply hyp1_true in E as (E1 & E2).
      rewrite (map_step _ l i []), !mget0_is; auto; eapply zlen_ne; eauto.
    - intros A. set (r := env3 "x" (vm [[]]) "i" (VInt 0) 0).
      destruct (H r [[]] 0 0 eq_refl eq_refl eq_refl) as (b & E & B).
      rewrite A in E; [|repeat constructor; cbn; eexists; (split; [reflexivity|]); cbn; eexists; reflexivity | exact Logic.I].
      cbn in E. injection E as <-. destruct B as [B _]. discriminate (B eq_refl).
  Qed.

  (** *** the higher-order selections, specialised to a function [h] *)
  Lemma c_sel h (g : Z -> Z -> Z) : (forall x y, i_call I h [VInt x; VInt y] = Some (VInt (g x y))) ->
    defines I selection_two_args -> forall l r,
    i_call I "selection_two_args" [vl l; vl r; VFn h] = Some (vl (velem g l r)).
  Proof.
    intros G D l r. unfold velem. destruct (Nat.eqb_spec (List.length l) (List.length r)) as [E|E].
    - rewrite (selection_pointwise _ _ L h (fun x y => Some (g x y))); auto. now rewrite pointwise_total.
    - destruct (D [vl l; vl r; VFn h]) as (r0 & B & ->).
      { constructor; [now exists l|]. constructor; [now exists r|]. constructor; [now exists h|]. constructor. }
      cbn in B. injection B as <-. cbn -[vl zlen Z.ltb Z.eqb]. rewrite !c_len. cbn -[vl zlen Z.ltb Z.eqb].
      destruct (Z.eqb_spec (zlen l) (zlen r)) as [E'|E']; [unfold zlen in E'; lia|]. cbn [negb orb]. rewrite orb_true_r.
      apply (lib_empty _ _ L).
  Qed.

  Lemma c_dsel h (g : Z -> Z -> Z) p q : (forall x y, i_call I h [VInt x; VInt y; VInt p; VInt q] = Some (VInt (g x y))) ->
    defines I dissolve_selection_two_args -> forall l r,
    i_call I "dissolve_selection_two_args" [vl l; vl r; VInt p; VInt q; VFn h] = Some (vl (velem g l r)).
  Proof.
    intros G D l r. unfold velem. destruct (Nat.eqb_spec (List.length l) (List.length r)) as [E|E].
    - rewrite (dissolve_pointwise _ _ L h (fun x y => Some (g x y))); auto. now rewrite pointwise_total.
    - destruct (D [vl l; vl r; VInt p; VInt q; VFn h]) as (r0 & B & ->).
      { constructor; [now exists l|]. constructor; [now exists r|]. constructor; [now exists p|]. constructor; [now exists q|].
        constructor; [now exists h|]. constructor. }
      cbn in B. injection B as <-. cbn -[vl zlen Z.ltb Z.eqb]. rewrite !c_len. cbn -[vl zlen Z.ltb Z.eqb].
      destruct (Z.eqb_spec (zlen l) (zlen r)) as [E'|E']; [unfold zlen in E'; lia|]. cbn [negb orb]. rewrite orb_true_r.
      apply (lib_empty _ _ L).
  Qed.

  Lemma c_msel h (g : Z -> Z -> Z) : (forall x y, i_call I h [VInt x; VInt y] = Some (VInt (g x y))) ->
    defines I selection_two_args -> defines I matrix_selection_two_args -> forall m n,
    i_call I "matrix_selection_two_args" [vm m; vm n; VFn h] = Some (vm (velem (velem g) m n)).
  Proof.
    intros G D1 D. induction m as [|x m IH]; intros n;
    [pose proof (D [vm []; vm n; VFn h]) as D2 | pose proof (D [vm (x :: m); vm n; VFn h]) as D2];
    destruct D2 as (r0 & B & E);
      try (constructor; [(now exists []) || (now exists (x :: m))|]; constructor; [now exists n|]; constructor; [now exists h|]; constructor);
      cbn in B; injection B as <-; rewrite E; cbn -[vl vm zlen Z.ltb Z.eqb]; rewrite !c_mlen; cbn -[vl vm zlen Z.ltb Z.eqb velem].
    - unfold velem at 1. destruct n; apply (lib_mempty _ _ L).
    - rewrite lt1_cons, orb_false_r. cbn [orb]. destruct n as [|y n]; [apply (lib_mempty _ _ L)|]. rewrite zlen_cons_eqb.
      destruct (Z.eqb_spec (zlen m) (zlen n)) as [E2|E2]; unfold zlen in E2; cbn [negb].
      + rewrite (lib_mget0 _ _ L x m), (lib_mget0 _ _ L y n), (lib_mtail1 _ _ L x m), (lib_mtail1 _ _ L y n).
        rewrite (c_sel h g G D1), IH, velem_step by lia. apply c_mprepend.
      + unfold velem at 1. simpl. destruct (Nat.eqb_spec (List.length m) (List.length n)); [lia | apply (lib_mempty _ _ L)].
  Qed.

  Lemma c_dmsel h (g : Z -> Z -> Z) p q : (forall x y, i_call I h [VInt x; VInt y; VInt p; VInt q] = Some (VInt (g x y))) ->
    defines I dissolve_selection_two_args -> defines I dissolve_matrix_selection_two_args -> forall m n,
    i_call I "dissolve_matrix_selection_two_args" [vm m; vm n; VInt p; VInt q; VFn h] = Some (vm (velem (velem g) m n)).
  Proof.
    intros G D1 D. induction m as [|x m IH]; intros n;
    [pose proof (D [vm []; vm n; VInt p; VInt q; VFn h]) as D2 | pose proof (D [vm (x :: m); vm n; VInt p; VInt q; VFn h]) as D2];
    destruct D2 as (r0 & B & E);
      try (constructor; [(now exists []) || (now exists (x :: m))|]; constructor; [now exists n|]; constructor; [now exists p|];
        constructor; [now exists q|]; constructor; [now exists h|]; constructor);
      cbn in B; injection B as <-; rewrite E; cbn -[vl vm zlen Z.ltb Z.eqb]; rewrite !c_mlen; cbn -[vl vm zlen Z.ltb Z.eqb velem].
    - unfold velem at 1. destruct n; apply (lib_mempty _ _ L).
    - rewrite lt1_cons, orb_false_r. cbn [orb]. destruct n as [|y n]; [apply (lib_mempty _ _ L)|]. rewrite zlen_cons_eqb.
      destruct (Z.eqb_spec (zlen m) (zlen n)) as [E2|E2]; unfold zlen in E2; cbn [negb].
      + rewrite (lib_mget0 _ _ L x m), (lib_mget0 _ _ L y n), (lib_mtail1 _ _ L x m), (lib_mtail1 _ _ L y n).
        rewrite (c_dsel h g p q G D1), IH, velem_step by lia. apply c_mprepend.
      + unfold velem at 1. simpl. destruct (Nat.eqb_spec (List.length m) (List.length n)); [lia | apply (lib_mempty _ _ L)].
  Qed.

  Lemma dissolve_axiom_good (g : Z -> Z -> Z -> Z -> Z) :
    (forall m n p q, i_call I "dissolve_matrix_selection_two_args" [vm m; vm n; VInt p; VInt q] =
       Some (vm (velem (velem (fun x y => g x y p q)) m n))) ->
    (forall l r p q, i_call I "dissolve_selection_two_args" [vl l; vl r; VInt p; VInt q] =
       Some (vl (velem (fun x y => g x y p q) l r))) ->
    good_axiom dissolve_matrix_selection_two_args_axiom.
  Proof.
    intros HM' HV.
    assert (H : forall r l l' p q i, r "x" = Some (vm l) -> r "y" = Some (vm l') -> r "opacity" = Some (VInt p) ->
        r "rand" = Some (VInt q) -> r "index" = Some (VInt i) ->
        exists b, eval I r (match dissolve_matrix_selection_two_args_axiom with Ok (Node _ _ (e :: _)) => e | _ => Atom PNone end)
          = Some (VBool (implb (hyp2 (zlen l) (zlen l') i) b)) /\
        let G := velem (fun x y => g x y p q) in
        (b = true <-> velem G (firstn (Z.to_nat i) l) (firstn (Z.to_nat i) l') =
           G (matrix_get S l 0) (matrix_get S l' 0) ::
           velem G (skipn (Z.to_nat 1) (firstn (Z.to_nat i) l)) (skipn (Z.to_nat 1) (firstn (Z.to_nat i) l')))).
    { intros r l l' p q i Ha Hb Hp Hq Hi. set (G := velem (fun x y => g x y p q)).
      destruct (c_meq (velem G (firstn (Z.to_nat i) l) (firstn (Z.to_nat i) l'))
         (G (matrix_get S l 0) (matrix_get S l' 0) ::
           velem G (skipn (Z.to_nat 1) (firstn (Z.to_nat i) l)) (skipn (Z.to_nat 1) (firstn (Z.to_nat i) l')))) as (b & E & B).
      exists b; split; [|exact B].
      cbn -[vl vm zlen Z.to_nat Z.leb Z.ltb Z.eqb]; rewrite Ha, Hb, Hp, Hq, Hi; cbn -[vl vm zlen Z.to_nat Z.leb Z.ltb Z.eqb].
      rewrite !c_mlen, !c_mtake, !c_mslice, !c_mget, !HM', !HV; cbn -[vl vm zlen Z.to_nat Z.leb Z.ltb Z.eqb velem].
      rewrite c_mprepend. unfold G in E. rewrite E; unfold hyp2; rewrite !andb_true_r; reflexivity. }
    unfold good_axiom, axiom_holds, axiom_holds_when.
    remember dissolve_matrix_selection_two_args_axiom as ax eqn:AX.
    destruct ax as [[|[] t [|e vars]]|]; try (exfalso; vm_compute in AX; discriminate AX).
    assert (vars = [o_src ax_x; o_src ax_y; o_src (int_var "opacity"); o_src (int_var "rand"); o_src ax_index]) as ->
      by (vm_compute in AX |- *; injection AX; auto). clear AX. split.
    - intros r T (i & Hi & Gi). apply typed_m in T as [(l & V) T]. apply typed_m in T as [(l2 & V2) T].
      apply typed_i in T as [(p & V3) T]. apply typed_i in T as [(q & V4) _].
      destruct (H r l l2 p q i V V2 V3 V4 Hi) as (b & -> & B). f_equal. f_equal.
      destruct (hyp2 (zlen l) (zlen l2) i) eqn:E; [|reflexivity]. cbn [implb]. apply B.
      apply hyp2_true in E as (E1 & E2 & E3).
      rewrite (elem_step _ l l2 i []), !mget0_is; auto; eapply zlen_ne; eauto; congruence.
    - intros A. set (r := upd (upd (env3 "x" (vm [[]]) "y" (vm [[]]) 0) "opacity" (VInt 0)) "rand" (VInt 0)).
      destruct (H r [[]] [[]] 0 0 0 eq_refl eq_refl eq_refl eq_refl eq_refl) as (b & E & B).
      rewrite A in E; [|repeat constructor; cbn; eexists; (split; [reflexivity|]); cbn; eexists; reflexivity | exact Logic.I].
      cbn in E. injection E as <-. destruct B as [B _]. discriminate (B eq_refl).
  Qed.

  (** *** reductions *)
  Lemma firstn_snoc {A} (l : list A) n d : (n < List.length l)%nat -> firstn (Datatypes.S n) l = (firstn n l ++ [nth n l d])%list.
  Proof.
    revert n. induction l as [|x l IH]; intros n Hn; [simpl in Hn; lia|].
    destruct n; [reflexivity|]. cbn [firstn nth app]. rewrite <- IH by (simpl in Hn; lia). reflexivity.
  Qed.

  Lemma sum_app l r : fold_right Z.add 0 (l ++ r)%list = fold_right Z.add 0 l + fold_right Z.add 0 r.
  Proof. induction l; simpl; [reflexivity|]. rewrite IHl. lia. Qed.

  Definition hyp3 (i m : Z) : bool := (0 <=? i) && (i <=? m) && (0 <=? m).

  Lemma eval_sum_axiom : defines I reduce_sum ->
    match reduce_sum_axiom with
    | Ok (Node KAxiom _ (e :: vars)) =>
        vars = [o_src ax_a; o_src ax_index; o_src ax_i] /\
        forall r l i m, r "a" = Some (vl l) -> r "i" = Some (VInt m) -> r "index" = Some (VInt i) ->
        eval I r e = Some (VBool (implb (hyp3 i m)
          (fold_right Z.add 0 (firstn (Z.to_nat (i + 1)) l) =?
           fold_right Z.add 0 (firstn (Z.to_nat i) l) + SmtPrelude.list_get S l i)))
    | _ => False
    end.
  Proof.
    intros D. (split; [reflexivity|]); intros r l i m Ha Hm Hi.
    cbn -[vl zlen Z.to_nat Z.leb Z.ltb Z.eqb fold_right firstn]; rewrite Ha, Hm, Hi; cbn -[vl zlen Z.to_nat Z.leb Z.ltb Z.eqb fold_right firstn].
    rewrite !c_take, !c_get, !(reduce_sum_is _ _ L D). unfold hyp3. cbn -[Z.to_nat Z.leb Z.ltb Z.eqb firstn].
    rewrite !andb_true_r. reflexivity.
  Qed.

  Lemma sum_axiom_in_range l i : 0 <= i < zlen l ->
    fold_right Z.add 0 (firstn (Z.to_nat (i + 1)) l) = fold_right Z.add 0 (firstn (Z.to_nat i) l) + SmtPrelude.list_get S l i.
  Proof.
    intros Hi. replace (Z.to_nat (i + 1)) with (Datatypes.S (Z.to_nat i)) by lia. unfold zlen in Hi.
    rewrite (firstn_snoc l (Z.to_nat i) 0) by lia. rewrite sum_app. unfold SmtPrelude.list_get.
    rewrite (get_is _ HI l i 0); [simpl; lia | lia | destruct l; [simpl in Hi; lia | discriminate]].
  Qed.

  Lemma sum_axiom_iff : defines I reduce_sum ->
    (axiom_holds I reduce_sum_axiom <-> forall l i, zlen l <= i -> SmtPrelude.list_get S l i = 0).
  Proof.
    intros D. pose proof (eval_sum_axiom D) as H. unfold axiom_holds, axiom_holds_when.
    destruct reduce_sum_axiom as [[|[] t [|e vars]]|]; try contradiction. destruct H as [-> H]. split.
    - intros A l i Hi. set (r := upd (upd (upd (fun _ => None) "a" (vl l)) "i" (VInt i)) "index" (VInt i)).
      specialize (H r l i i eq_refl eq_refl eq_refl).
      assert (0 <= i) by (unfold zlen in Hi; lia).
      rewrite A in H; [|repeat constructor; cbn; eexists; (split; [reflexivity|]); cbn; eexists; reflexivity | exact Logic.I].
      injection H as H. unfold hyp3 in H. rewrite (proj2 (Z.leb_le 0 i)), (proj2 (Z.leb_le i i)) in H by lia.
      cbn [andb implb] in H. symmetry in H. apply Z.eqb_eq in H.
      rewrite !firstn_all2 in H by (unfold zlen in Hi; lia). lia.
    - intros A r T _. apply typed_l in T as [(l & V) T]. apply typed_i in T as [(i & V2) T]. apply typed_i in T as [(m & V3) _].
      rewrite (H r l i m V V3 V2). f_equal. f_equal. destruct (hyp3 i m) eqn:E; [|reflexivity]. cbn [implb]. apply Z.eqb_eq.
      unfold hyp3 in E. rewrite !andb_true_iff, !Z.leb_le in E.
      destruct (Z.le_gt_cases (zlen l) i) as [Q|Q].
      + rewrite (A l i Q), !firstn_all2 by (unfold zlen in Q; lia). lia.
      + apply sum_axiom_in_range. lia.
  Qed.

  Lemma maxval_snoc x l y : maxval x (l ++ [y])%list = Z.max y (maxval x l).
  Proof. revert x. induction l as [|z l IH]; intros x; simpl; [lia|]. rewrite IH. lia. Qed.

  Definition max_of (l : list Z) : Z := match l with [] => -32 | x :: r => maxval x r end.

  Lemma eval_max_axiom : defines I reduce_max ->
    match reduce_max_axiom with
    | Ok (Node KAxiom _ (e :: vars)) =>
        vars = [o_src ax_a; o_src ax_index; o_src ax_i] /\
        forall r l i m, r "a" = Some (vl l) -> r "i" = Some (VInt m) -> r "index" = Some (VInt i) ->
        eval I r e = Some (VBool (implb (hyp3 i m)
          (max_of (firstn (Z.to_nat (i + 1)) l) =?
           Z.max (SmtPrelude.list_get S l i) (max_of (firstn (Z.to_nat i) l)))))
    | _ => False
    end.
  Proof.
    intros D. (split; [reflexivity|]); intros r l i m Ha Hm Hi.
    cbn -[vl zlen Z.to_nat Z.leb Z.ltb Z.eqb firstn max_of]; rewrite Ha, Hm, Hi; cbn -[vl zlen Z.to_nat Z.leb Z.ltb Z.eqb firstn max_of].
    rewrite !c_take, !c_get, !(reduce_max_is _ _ L D). fold (max_of (firstn (Z.to_nat (i + 1)) l)) (max_of (firstn (Z.to_nat i) l)).
    unfold hyp3. cbn -[Z.to_nat Z.leb Z.ltb Z.eqb firstn max_of Z.max].
    rewrite !andb_true_r. destruct (Z.ltb_spec (max_of (firstn (Z.to_nat i) l)) (SmtPrelude.list_get S l i));
      [rewrite Z.max_l by lia | rewrite Z.max_r by lia]; cbn -[Z.to_nat Z.leb Z.ltb Z.eqb firstn max_of Z.max]; reflexivity.
  Qed.

  (** 1 <= index < length *)
  Definition index_inside (r : env) : Prop :=
    exists i l, r "index" = Some (VInt i) /\ r "a" = Some (vl l) /\ 1 <= i < zlen l.

  Lemma max_axiom_good : defines I reduce_max ->
    axiom_holds_when index_inside I reduce_max_axiom /\ ~ axiom_holds I reduce_max_axiom.
  Proof.
    intros D. pose proof (eval_max_axiom D) as H. unfold axiom_holds, axiom_holds_when.
    destruct reduce_max_axiom as [[|[] t [|e vars]]|]; try contradiction. destruct H as [-> H]. split.
    - intros r T (i & l & V2 & V & Hi). apply typed_l in T as [_ T]. apply typed_i in T as [_ T]. apply typed_i in T as [(m & V3) _].
      rewrite (H r l i m V V3 V2). f_equal. f_equal. destruct (hyp3 i m) eqn:E; [|reflexivity]. cbn [implb]. apply Z.eqb_eq.
      replace (Z.to_nat (i + 1)) with (Datatypes.S (Z.to_nat i)) by lia. unfold zlen in Hi.
      rewrite (firstn_snoc l (Z.to_nat i) 0) by lia. unfold SmtPrelude.list_get.
      rewrite (get_is _ HI l i 0); [| lia | destruct l; [simpl in Hi; lia | discriminate]].
      destruct l as [|x l]; [simpl in Hi; lia|]. destruct (Z.to_nat i) as [|n] eqn:N; [lia|].
      cbn [firstn max_of app]. rewrite maxval_snoc. reflexivity.
    - intros A. set (r := upd (upd (upd (fun _ => None) "a" (vl [-100])) "i" (VInt 0)) "index" (VInt 0)).
      specialize (H r [-100] 0 0 eq_refl eq_refl eq_refl).
      rewrite A in H; [|repeat constructor; cbn; eexists; (split; [reflexivity|]); cbn; eexists; reflexivity | exact Logic.I].
      rewrite get0_hd in H. vm_compute in H. discriminate H.
  Qed.

  (** *** matrix_vec_mul *)
  Lemma eval_mvm_axiom (FM : list (list Z) -> list Z -> list Z) (P : list Z -> list Z -> list Z) :
    (forall m v, i_call I "matrix_vec_mul" [vm m; vl v] = Some (vl (FM m v))) ->
    (forall l r, i_call I "vec_elemwise_mul" [vl l; vl r] = Some (vl (P l r))) ->
    defines I reduce_sum ->
    match matrix_vec_mul_axiom with
    | Ok (Node KAxiom _ (e :: vars)) =>
        vars = [o_src ax_x; o_src ax_b; o_src ax_index] /\
        forall r m v i, r "x" = Some (vm m) -> r "b" = Some (vl v) -> r "index" = Some (VInt i) ->
        exists b, eval I r e = Some (VBool (implb (hyp1 (zlen m) i) b)) /\
        (b = true <-> FM (firstn (Z.to_nat i) m) v =
           fold_right Z.add 0 (P (matrix_get S m 0) v) :: FM (skipn (Z.to_nat 1) (firstn (Z.to_nat i) m)) v)
    | _ => False
    end.
  Proof.
    intros HM' HV D. (split; [reflexivity|]); intros r m v i Ha Hb Hi.
    destruct (c_eq (FM (firstn (Z.to_nat i) m) v)
       (fold_right Z.add 0 (P (matrix_get S m 0) v) :: FM (skipn (Z.to_nat 1) (firstn (Z.to_nat i) m)) v)) as (b & E & B).
    exists b; split; [|exact B].
    cbn -[vl vm zlen Z.to_nat Z.leb Z.ltb Z.eqb]; rewrite Ha, Hb, Hi; cbn -[vl vm zlen Z.to_nat Z.leb Z.ltb Z.eqb].
    rewrite !c_mlen, !c_mtake, !c_mslice, !c_mget, !HM', !HV; cbn -[vl vm zlen Z.to_nat Z.leb Z.ltb Z.eqb].
    rewrite (reduce_sum_is _ _ L D), c_prepend, E; unfold hyp1; rewrite !andb_true_r; reflexivity.
  Qed.

  (** the index is at least 1 and the first row has as many entries as the vector, at least one *)
  Definition first_row_fits (r : env) : Prop :=
    exists row m v, r "x" = Some (vm (row :: m)) /\ r "b" = Some (vl v) /\ row <> [] /\ List.length row = List.length v.

  Lemma mvm_axiom_good : defines I vec_elemwise_mul -> defines I reduce_sum -> defines I matrix_vec_mul ->
    axiom_holds_when (fun r => index_from_1 r /\ first_row_fits r) I matrix_vec_mul_axiom /\
    ~ axiom_holds I matrix_vec_mul_axiom.
  Proof.
    intros D1 D2 D3.
    pose proof (eval_mvm_axiom _ _ (matrix_vec_mul_is _ _ L D1 D2 D3)
      (c_velem "vec_elemwise_mul" "matrix_elemwise_mul" "tensor3d_elemwise_mul" KMul (or_intror (or_intror (or_introl eq_refl))) D1) D2) as H.
    unfold axiom_holds, axiom_holds_when.
    destruct matrix_vec_mul_axiom as [[|[] t [|e vars]]|]; try contradiction. destruct H as [-> H]. split.
    - intros r T [(i & Hi & Gi) (row & m & v & V & V2 & NE & E0)].
      destruct (H r (row :: m) v i V V2 Hi) as (b & -> & B). f_equal. f_equal.
      destruct (hyp1 _ i) eqn:E; [|reflexivity]. cbn [implb]. apply B. clear B.
      rewrite (first_step row m i Gi). cbn [good_rows].
      destruct (Z.ltb_spec (zlen row) 1) as [Q|Q]; [unfold zlen in Q; destruct row; [congruence | simpl in Q; lia]|].
      unfold zlen at 1 2. rewrite E0, Z.eqb_refl. cbn [orb negb map]. f_equal.
      rewrite mget0_hd. unfold dot, velem. rewrite E0, Nat.eqb_refl. reflexivity.
    - intros A. set (r := env3 "x" (vm [[]]) "b" (vl []) 0).
      destruct (H r [[]] [] 0 eq_refl eq_refl eq_refl) as (b & E & B).
      rewrite A in E; [|repeat constructor; cbn; eexists; (split; [reflexivity|]); cbn; eexists; reflexivity | exact Logic.I].
      cbn in E. injection E as <-. destruct B as [B _]. discriminate (B eq_refl).
  Qed.
End Ax.
