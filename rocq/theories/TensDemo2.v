(** Continuation: a concrete interpretation in which every function of the tensor DSL has the
    meaning of its definition, for the solver's prelude and for the Racket library:
    the hypotheses of the theorems about the DSL can be met.  No model of code in
    /repo. *)

From Coq Require Import String List ZArith Bool Lia.
From Verif Require Import Ast Semantics IrProofs5 SmtPrelude SmtProofs RktModel ListOps UtilModel ObjModel TensModel LibSem
  TensProofs AxProofs TensDemo.
Import ListNotations.
Local Open Scope string_scope.
Local Open Scope Z_scope.

(** ** every definition of the DSL holds in the demonstration *)
Section Defs.
  Variables (e : bool) (ap : string -> list dval -> option dval) (dv : Z -> Z -> option Z).
  Let I := demo ap dv.
  Hypothesis L : list_lib e I.

  Lemma i_lib f vs ts : sig_of f = Some ts -> i_call I f vs = lc ap f vs.
  Proof. apply call1_lib. Qed.

  Lemma i_pre vs : i_call I "list_prepend" vs = lc ap "list_prepend" vs.
  Proof. now apply (i_lib "list_prepend" vs [GZ; GL]). Qed.
  Lemma i_mpre vs : i_call I "matrix_prepend" vs = lc ap "matrix_prepend" vs.
  Proof. now apply (i_lib "matrix_prepend" vs [GL; GM]). Qed.

  Lemma fve_eq k l r : fve ap dv k l r =
    if (zlen l <? 1) || negb (zlen l =? zlen r) then Some (vl [])
    else match l, r with
         | x :: l', y :: r' =>
             match arith I k x y, fve ap dv k l' r' with
             | Some z, Some v => i_call I "list_prepend" [VInt z; v]
             | _, _ => None
             end
         | _, _ => None
         end.
  Proof.
    unfold fve. destruct l as [|x l]; [reflexivity|]. cbn [d_elem]. destruct (_ || _); [reflexivity|].
    destruct r; [reflexivity|]. change (arith I k x z) with (ar dv k x z).
    destruct (ar dv k x z); [|reflexivity]. cbn [option_map]. destruct (d_elem _ _ _ _ _); [|reflexivity].
    now rewrite i_pre.
  Qed.

  Lemma def_ve f f2 f3 k : arith_kind k ->
    (forall l r, i_call I f [vl l; vl r] = fve ap dv k l r) -> defines I (vec_elem f f2 f3 k).
  Proof.
    intros K E. apply (vec_elem_def _ _ L); [exact K|]. intros l r. rewrite E, fve_eq.
    destruct (_ || _); [reflexivity|]. destruct l; [reflexivity|]. destruct r; [reflexivity|]. now rewrite E.
  Qed.

  Lemma fme_eq k l r : fme ap dv k l r =
    if (zlen l <? 1) || negb (zlen l =? zlen r) then Some (vm [])
    else match l, r with
         | x :: l', y :: r' =>
             match fve ap dv k x y, fme ap dv k l' r' with
             | Some z, Some v => i_call I "matrix_prepend" [z; v]
             | _, _ => None
             end
         | _, _ => None
         end.
  Proof.
    unfold fme. destruct l as [|x l]; [reflexivity|]. cbn [d_elem]. destruct (_ || _); [reflexivity|].
    destruct r; [reflexivity|]. destruct (fve _ _ _ _ _); [|reflexivity]. destruct (d_elem _ _ _ _ _); [|reflexivity].
    now rewrite i_mpre.
  Qed.

  Lemma def_me fv fm ft k k' : arith_kind k' ->
    (forall l r, i_call I fv [vl l; vl r] = fve ap dv k l r) ->
    (forall l r, i_call I fm [vm l; vm r] = fme ap dv k l r) -> defines I (mat_elem fv fm ft k').
  Proof.
    intros K E1 E. apply (mat_elem_def _ _ L); [exact K|]. intros l r. rewrite E, fme_eq.
    destruct (_ || _); [reflexivity|]. destruct l; [reflexivity|]. destruct r; [reflexivity|]. now rewrite E1, E.
  Qed.

  Lemma def_vs f f2 k sw : arith_kind k ->
    (forall a l, i_call I f [VInt a; vl l] = fvs ap dv k sw a l) -> defines I (vec_scal f f2 (scal k sw)).
  Proof.
    intros K E. apply (vec_scal_def _ _ L); [exact K|]. intros a l. rewrite E.
    destruct l; [reflexivity|]. rewrite E. unfold fvs. cbn [d_scal].
    unfold scal_val. change (arith I k) with (ar dv k). destruct sw;
    match goal with |- context [ar dv k ?a ?b] => destruct (ar dv k a b); [|reflexivity] end;
    cbn [option_map]; destruct (d_scal _ _ _ _); auto; now rewrite i_pre.
  Qed.

  Lemma def_ms fv fm k sw cf :
    (forall a l, i_call I fv [VInt a; vl l] = fvs ap dv k sw a l) ->
    (forall a l, i_call I fm [VInt a; vm l] = fms ap dv k sw a l) -> defines I (mat_scal fv fm cf).
  Proof.
    intros E1 E. apply (mat_scal_def _ _ L). intros a l. rewrite E.
    destruct l; [reflexivity|]. rewrite E, E1. unfold fms. cbn [d_scal].
    destruct (fvs _ _ _ _ _ _); [|reflexivity]. destruct (d_scal _ _ _ _); [|reflexivity].
    now rewrite i_mpre.
  Qed.

  Lemma in0 f g : find (fun p => String.eqb f (fst p)) (table1 ap dv) = None ->
    In (f, g) (table0 ap dv) -> forall vs, i_call I f vs = g vs.
  Proof.
    intros F H vs. cbn [i_call demo I]. unfold call1. rewrite F. unfold bc. clear F L.
    cbn [In table0] in H.
    repeat (destruct H as [H|H]; [injection H as <- <-; reflexivity|]). destruct H.
  Qed.

  Ltac fin := cbn [on_vv on_mm on_sv on_sm on_v]; rewrite ?dec_vl, ?dec_vm; reflexivity.
  Ltac pick := cbn [table0 In]; first [left; reflexivity | right; pick].
  Ltac t0 := intros; erewrite in0; [| reflexivity | pick]; fin.

  Lemma def0 : forall d, In d
    [vec_elemwise_add; vec_elemwise_sub; vec_elemwise_mul; vec_elemwise_div;
     matrix_elemwise_add; matrix_elemwise_sub; matrix_elemwise_mul; matrix_elemwise_div;
     vec_scalar_add; vec_scalar_mul; vec_scalar_div; scalar_vec_div; vec_scalar_sub; scalar_vec_sub;
     matrix_scalar_add; matrix_scalar_mul; matrix_scalar_div; scalar_matrix_div; matrix_scalar_sub; scalar_matrix_sub;
     reduce_sum; reduce_mul; reduce_max; matrix_vec_mul] -> defines I d.
  Proof.
    assert (KA : arith_kind KAdd) by now left.
    assert (KS : arith_kind KSub) by (right; now left).
    assert (KM : arith_kind KMul) by (right; right; now left).
    assert (KD : arith_kind KDiv) by (right; right; now right).
    assert (VM : defines I vec_elemwise_mul).
    { apply (def_ve "vec_elemwise_mul" "matrix_elemwise_mul" "tensor3d_elemwise_mul" KMul KM); t0. }
    assert (RS : defines I reduce_sum) by (apply (reduce_sum_def _ _ L); t0).
    intros d H. cbn [In] in H. repeat (destruct H as [<-|H]); try contradiction.
    - apply (def_ve "vec_elemwise_add" "matrix_elemwise_add" "tensor3d_elemwise_add" KAdd KA); t0.
    - apply (def_ve "vec_elemwise_sub" "matrix_elemwise_sub" "tensor3d_elemwise_sub" KSub KS); t0.
    - exact VM.
    - apply (def_ve "vec_elemwise_div" "matrix_elemwise_div" "tensor3d_elemwise_div" KDiv KD); t0.
    - apply (def_me "vec_elemwise_add" "matrix_elemwise_add" "tensor3d_elemwise_add" KAdd KAdd KA); t0.
    - apply (def_me "vec_elemwise_sub" "matrix_elemwise_sub" "tensor3d_elemwise_sub" KSub KAdd KA); t0.
    - apply (def_me "vec_elemwise_mul" "matrix_elemwise_mul" "tensor3d_elemwise_mul" KMul KMul KM); t0.
    - apply (def_me "vec_elemwise_div" "matrix_elemwise_div" "tensor3d_elemwise_div" KDiv KDiv KD); t0.
    - apply (def_vs "vec_scalar_add" "matrix_scalar_add" KAdd false KA); t0.
    - apply (def_vs "vec_scalar_mul" "matrix_scalar_mul" KMul false KM); t0.
    - apply (def_vs "vec_scalar_div" "matrix_scalar_div" KDiv true KD); t0.
    - apply (def_vs "scalar_vec_div" "scalar_matrix_div" KDiv false KD); t0.
    - apply (def_vs "vec_scalar_sub" "matrix_scalar_sub" KSub true KS); t0.
    - apply (def_vs "scalar_vec_sub" "scalar_matrix_sub" KSub false KS); t0.
    - apply (def_ms "vec_scalar_add" "matrix_scalar_add" KAdd false (op KAdd)); t0.
    - apply (def_ms "vec_scalar_mul" "matrix_scalar_mul" KMul false (op KMul)); t0.
    - apply (def_ms "vec_scalar_div" "matrix_scalar_div" KDiv true (rop KDiv)); t0.
    - apply (def_ms "scalar_vec_div" "scalar_matrix_div" KDiv false (op KDiv)); t0.
    - apply (def_ms "vec_scalar_sub" "matrix_scalar_sub" KSub true (rop KSub)); t0.
    - apply (def_ms "scalar_vec_sub" "scalar_matrix_sub" KSub false (rop KSub)); t0.
    - exact RS.
    - apply (reduce_mul_def _ _ L); t0.
    - apply (reduce_max_def _ _ L); t0.
    - apply (matrix_vec_mul_def _ _ L VM RS); t0.
  Qed.

  (** higher-order functions *)
  Lemma in1 f g : In (f, g) (table1 ap dv) -> forall vs, i_call I f vs = g vs.
  Proof.
    intros H vs. cbn [i_call demo I]. unfold call1. clear L.
    cbn [In table1] in H.
    repeat (destruct H as [H|H]; [injection H as <- <-; reflexivity|]). destruct H.
  Qed.
  Ltac pick1 := cbn [table1 In]; first [left; reflexivity | right; pick1].

  Lemma i_ints h zs : i_call I h (map VInt zs) = bc ap dv h (map VInt zs).
  Proof. apply call1_ints. Qed.

  Lemma c1_map l h : i_call I "vec_map" [vl l; VFn h] = d_scal ap (fun x => bc ap dv h [VInt x]) "list_prepend" l.
  Proof. erewrite in1; [|pick1]. cbn beta iota. now rewrite dec_vl. Qed.
  Lemma c1_sel l r h : i_call I "selection_two_args" [vl l; vl r; VFn h] = d_sel ap dv h l r.
  Proof. erewrite in1; [|pick1]. cbn beta iota. cbn [on_vv]. now rewrite !dec_vl. Qed.
  Lemma c1_msel l r h : i_call I "matrix_selection_two_args" [vm l; vm r; VFn h] = d_elem ap (d_sel ap dv h) "matrix_prepend" l r.
  Proof. erewrite in1; [|pick1]. cbn beta iota. cbn [on_mm]. now rewrite !dec_vm. Qed.
  Lemma c1_dis l r p q h : i_call I "dissolve_selection_two_args" [vl l; vl r; VInt p; VInt q; VFn h] = d_dis ap dv h p q l r.
  Proof. erewrite in1; [|pick1]. cbn beta iota. cbn [on_vv]. now rewrite !dec_vl. Qed.
  Lemma c1_mdis l r p q h : i_call I "dissolve_matrix_selection_two_args" [vm l; vm r; VInt p; VInt q; VFn h] =
    d_elem ap (d_dis ap dv h p q) "matrix_prepend" l r.
  Proof. erewrite in1; [|pick1]. cbn beta iota. cbn [on_mm]. now rewrite !dec_vm. Qed.

  Lemma d_elem_eq {A} (g : A -> A -> option val) pre l r : d_elem ap g pre l r =
    if (zlen l <? 1) || negb (zlen l =? zlen r) then Some (VList [])
    else match l, r with
         | x :: l', y :: r' =>
             match g x y, d_elem ap g pre l' r' with Some z, Some v => lc ap pre [z; v] | _, _ => None end
         | _, _ => None
         end.
  Proof. destruct l; reflexivity. Qed.

  Lemma def1 : forall d, In d [vec_map; selection_two_args; matrix_selection_two_args; dissolve_selection_two_args;
    dissolve_matrix_selection_two_args] -> defines I d.
  Proof.
    intros d H. cbn [In] in H. repeat (destruct H as [<-|H]); try contradiction.
    - apply (vec_map_def _ _ L). intros l h. rewrite c1_map. destruct l as [|x l]; [reflexivity|]. rewrite c1_map.
      cbn [d_scal]. change (i_call I h [VInt x]) with (i_call I h (map VInt [x])). rewrite i_ints. cbn [map].
      destruct (bc ap dv h [VInt x]); [|reflexivity]. destruct (d_scal _ _ _ _); [|reflexivity]. now rewrite i_pre.
    - apply (selection_def _ _ L). intros l r h. rewrite c1_sel. unfold d_sel. rewrite d_elem_eq.
      destruct (_ || _); [reflexivity|]. destruct l as [|x l]; [reflexivity|]. destruct r as [|y r]; [reflexivity|].
      rewrite c1_sel. change (i_call I h [VInt x; VInt y]) with (i_call I h (map VInt [x; y])). rewrite i_ints. cbn [map].
      unfold d_sel. destruct (bc _ _ _ _); [|reflexivity]. destruct (d_elem _ _ _ _ _); [|reflexivity]. now rewrite i_pre.
    - apply (matrix_selection_def _ _ L). intros l r h. rewrite c1_msel. rewrite d_elem_eq.
      destruct (_ || _); [reflexivity|]. destruct l as [|x l]; [reflexivity|]. destruct r as [|y r]; [reflexivity|].
      rewrite c1_msel, c1_sel.
      destruct (d_sel _ _ _ _ _); [|reflexivity]. destruct (d_elem _ _ _ _ _); [|reflexivity]. now rewrite i_mpre.
    - apply (dissolve_def _ _ L). intros l r p q h. rewrite c1_dis. unfold d_dis. rewrite d_elem_eq.
      destruct (_ || _); [reflexivity|]. destruct l as [|x l]; [reflexivity|]. destruct r as [|y r]; [reflexivity|].
      rewrite c1_dis. change (i_call I h [VInt x; VInt y; VInt p; VInt q]) with (i_call I h (map VInt [x; y; p; q])).
      rewrite i_ints. cbn [map].
      unfold d_dis. destruct (bc _ _ _ _); [|reflexivity]. destruct (d_elem _ _ _ _ _); [|reflexivity]. now rewrite i_pre.
    - apply (dissolve_matrix_def _ _ L). intros l r p q h. rewrite c1_mdis. rewrite d_elem_eq.
      destruct (_ || _); [reflexivity|]. destruct l as [|x l]; [reflexivity|]. destruct r as [|y r]; [reflexivity|].
      rewrite c1_mdis, c1_dis.
      destruct (d_dis _ _ _ _ _ _); [|reflexivity]. destruct (d_elem _ _ _ _ _); [|reflexivity]. now rewrite i_mpre.
  Qed.
End Defs.
