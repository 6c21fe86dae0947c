(** A concrete interpretation in which every function of the tensor DSL has the
    meaning of its definition, for the solver's prelude and for the Racket library:
    the hypotheses of the theorems about the DSL can be met.  No model of code in
    /repo. *)

From Coq Require Import String List ZArith Bool Lia.
From Verif Require Import Ast Semantics IrProofs5 SmtPrelude SmtProofs RktModel ListOps UtilModel ObjModel TensModel LibSem
  TensProofs AxProofs.
Import ListNotations.
Local Open Scope string_scope.
Local Open Scope Z_scope.

(** ** from the recursion equation to [defines] *)
Section Conv.
  Variables (e : bool) (I : interp).
  Hypothesis L : list_lib e I.

  Ltac args := repeat match goal with H : Forall2 has_ty _ _ |- _ => inversion H; subst; clear H end;
    repeat match goal with H : has_ty ?v _ |- _ => is_var v; destruct H as [? ->] end.
  Ltac dcall := repeat (match goal with |- context [match i_call I ?f ?a with _ => _ end] => destruct (i_call I f a) end;
    try reflexivity); try reflexivity.
  Ltac start EQ := intros vs T; args; eexists; (split; [reflexivity|]); rewrite EQ; cbn -[vl vm zlen Z.ltb Z.eqb];
    rewrite ?(lib_len _ _ L), ?(lib_mlen _ _ L), ?(lib_empty _ _ L), ?(lib_mempty _ _ L); cbn -[vl vm zlen Z.ltb Z.eqb];
    rewrite ?orb_false_r.

  Lemma vec_elem_def f f2 f3 k : arith_kind k ->
    (forall l r, i_call I f [vl l; vl r] =
      if (zlen l <? 1) || negb (zlen l =? zlen r) then Some (vl [])
      else match l, r with
           | x :: l', y :: r' =>
               match arith I k x y, i_call I f [vl l'; vl r'] with
               | Some z, Some v => i_call I "list_prepend" [VInt z; v]
               | _, _ => None
               end
           | _, _ => None
           end) -> defines I (vec_elem f f2 f3 k).
  Proof.
    intros K EQ. destruct K as [->|[->|[->| ->]]]; start EQ;
    match goal with |- context [(zlen ?l <? 1) || negb (zlen ?l =? zlen ?r)] =>
      destruct ((zlen l <? 1) || negb (zlen l =? zlen r)) eqn:C; [reflexivity|];
      apply orb_false_iff in C as [C1 C2]; apply negb_false_iff, Z.eqb_eq in C2;
      destruct l as [|x' l']; [discriminate C1|]; destruct r as [|y' r']; [discriminate C2|];
      rewrite (lib_get0 _ _ L x' l'), (lib_get0 _ _ L y' r'), (lib_tail1 _ _ L x' l'), (lib_tail1 _ _ L y' r');
      cbn -[vl zlen]; try (destruct (i_div I x' y')); cbn -[vl zlen]; destruct (i_call I f [vl l'; vl r']); reflexivity
    end.
  Qed.

  Lemma vec_scal_def f f2 k sw : arith_kind k ->
    (forall a l, i_call I f [VInt a; vl l] =
      match l with
      | [] => Some (vl [])
      | x :: l' =>
        match scal_val I k sw a x, i_call I f [VInt a; vl l'] with
        | Some z, Some v => i_call I "list_prepend" [VInt z; v]
        | _, _ => None
        end
      end) -> defines I (vec_scal f f2 (scal k sw)).
  Proof.
    intros K EQ. destruct K as [->|[->|[->| ->]]], sw; start EQ;
    match goal with |- context [zlen ?l <? 1] => destruct l as [|x' l']; [reflexivity|];
      rewrite lt1_cons, (lib_get0 _ _ L x' l'), (lib_tail1 _ _ L x' l'); cbn -[vl zlen];
      try match goal with |- context [i_div I ?a ?b] => destruct (i_div I a b) end; cbn -[vl zlen]; dcall
    end.
  Qed.

  Lemma mat_elem_def fv fm ft k : arith_kind k ->
    (forall m n, i_call I fm [vm m; vm n] =
      if (zlen m <? 1) || negb (zlen m =? zlen n) then Some (vm [])
      else match m, n with
         | x :: m', y :: n' =>
             match i_call I fv [vl x; vl y], i_call I fm [vm m'; vm n'] with
             | Some z, Some v => i_call I "matrix_prepend" [z; v]
             | _, _ => None
             end
         | _, _ => None
         end) -> defines I (mat_elem fv fm ft k).
  Proof.
    intros K EQ. destruct K as [->|[->|[->| ->]]]; start EQ;
    match goal with |- context [(zlen ?l <? 1) || negb (zlen ?l =? zlen ?r)] =>
      destruct ((zlen l <? 1) || negb (zlen l =? zlen r)) eqn:C; [reflexivity|];
      apply orb_false_iff in C as [C1 C2]; apply negb_false_iff, Z.eqb_eq in C2;
      destruct l as [|x' l']; [discriminate C1|]; destruct r as [|y' r']; [discriminate C2|];
      rewrite (lib_mget0 _ _ L x' l'), (lib_mget0 _ _ L y' r'), (lib_mtail1 _ _ L x' l'), (lib_mtail1 _ _ L y' r');
      destruct (i_call I fv [vl x'; vl y']); [|reflexivity]; destruct (i_call I fm [vm l'; vm r']); reflexivity
    end.
  Qed.

  Lemma mat_scal_def fv fm cf :
    (forall a m, i_call I fm [VInt a; vm m] =
      match m with
      | [] => Some (vm [])
      | x :: m' =>
        match i_call I fv [VInt a; vl x], i_call I fm [VInt a; vm m'] with
        | Some z, Some v => i_call I "matrix_prepend" [z; v]
        | _, _ => None
        end
      end) -> defines I (mat_scal fv fm cf).
  Proof.
    intros EQ; start EQ;
    match goal with |- context [zlen ?l <? 1] => destruct l as [|x' l']; [reflexivity|];
      rewrite lt1_cons, (lib_mget0 _ _ L x' l'), (lib_mtail1 _ _ L x' l'); cbn -[vl vm zlen];
      dcall
    end.
  Qed.

  Lemma vec_map_def :
    (forall l h, i_call I "vec_map" [vl l; VFn h] =
      match l with
      | [] => Some (vl [])
      | x :: l' =>
        match i_call I h [VInt x], i_call I "vec_map" [vl l'; VFn h] with
        | Some z, Some v => i_call I "list_prepend" [z; v]
        | _, _ => None
        end
      end) -> defines I vec_map.
  Proof.
    intros EQ; start EQ;
    match goal with |- context [zlen ?l <? 1] => destruct l as [|x' l']; [reflexivity|];
      rewrite lt1_cons, (lib_get0 _ _ L x' l'), (lib_tail1 _ _ L x' l'); cbn -[vl vm zlen];
      dcall
    end.
  Qed.

  Ltac two C l r lem_get lem_tail :=
      destruct ((zlen l <? 1) || negb (zlen l =? zlen r)) eqn:C; [reflexivity|];
      apply orb_false_iff in C as [C1 C2]; apply negb_false_iff, Z.eqb_eq in C2;
      destruct l as [|x' l']; [discriminate C1|]; destruct r as [|y' r']; [discriminate C2|];
      rewrite (lem_get x' l'), (lem_get y' r'), (lem_tail x' l'), (lem_tail y' r'); cbn -[vl vm zlen].

  Lemma selection_def :
    (forall l r h, i_call I "selection_two_args" [vl l; vl r; VFn h] =
      if (zlen l <? 1) || negb (zlen l =? zlen r) then Some (vl [])
      else match l, r with
         | x :: l', y :: r' =>
             match i_call I h [VInt x; VInt y], i_call I "selection_two_args" [vl l'; vl r'; VFn h] with
             | Some z, Some v => i_call I "list_prepend" [z; v]
             | _, _ => None
             end
         | _, _ => None
         end) -> defines I selection_two_args.
  Proof.
    intros EQ; start EQ.
    match goal with |- context [(zlen ?l <? 1) || negb (zlen ?l =? zlen ?r)] =>
      two C l r (lib_get0 _ _ L) (lib_tail1 _ _ L) end.
    dcall.
  Qed.

  Lemma matrix_selection_def :
    (forall l r h, i_call I "matrix_selection_two_args" [vm l; vm r; VFn h] =
      if (zlen l <? 1) || negb (zlen l =? zlen r) then Some (vm [])
      else match l, r with
         | x :: l', y :: r' =>
             match i_call I "selection_two_args" [vl x; vl y; VFn h], i_call I "matrix_selection_two_args" [vm l'; vm r'; VFn h] with
             | Some z, Some v => i_call I "matrix_prepend" [z; v]
             | _, _ => None
             end
         | _, _ => None
         end) -> defines I matrix_selection_two_args.
  Proof.
    intros EQ; start EQ.
    match goal with |- context [(zlen ?l <? 1) || negb (zlen ?l =? zlen ?r)] =>
      two C l r (lib_mget0 _ _ L) (lib_mtail1 _ _ L) end.
    dcall.
  Qed.

  Lemma dissolve_def :
    (forall l r p q h, i_call I "dissolve_selection_two_args" [vl l; vl r; VInt p; VInt q; VFn h] =
      if (zlen l <? 1) || negb (zlen l =? zlen r) then Some (vl [])
      else match l, r with
         | x :: l', y :: r' =>
             match i_call I h [VInt x; VInt y; VInt p; VInt q],
                   i_call I "dissolve_selection_two_args" [vl l'; vl r'; VInt p; VInt q; VFn h] with
             | Some z, Some v => i_call I "list_prepend" [z; v]
             | _, _ => None
             end
         | _, _ => None
         end) -> defines I dissolve_selection_two_args.
  Proof.
    intros EQ; start EQ.
    match goal with |- context [(zlen ?l <? 1) || negb (zlen ?l =? zlen ?r)] =>
      two C l r (lib_get0 _ _ L) (lib_tail1 _ _ L) end.
    dcall.
  Qed.

  Lemma dissolve_matrix_def :
    (forall l r p q h, i_call I "dissolve_matrix_selection_two_args" [vm l; vm r; VInt p; VInt q; VFn h] =
      if (zlen l <? 1) || negb (zlen l =? zlen r) then Some (vm [])
      else match l, r with
         | x :: l', y :: r' =>
             match i_call I "dissolve_selection_two_args" [vl x; vl y; VInt p; VInt q; VFn h],
                   i_call I "dissolve_matrix_selection_two_args" [vm l'; vm r'; VInt p; VInt q; VFn h] with
             | Some z, Some v => i_call I "matrix_prepend" [z; v]
             | _, _ => None
             end
         | _, _ => None
         end) -> defines I dissolve_matrix_selection_two_args.
  Proof.
    intros EQ; start EQ.
    match goal with |- context [(zlen ?l <? 1) || negb (zlen ?l =? zlen ?r)] =>
      two C l r (lib_mget0 _ _ L) (lib_mtail1 _ _ L) end.
    dcall.
  Qed.

  Lemma reduce_sum_def : (forall l, i_call I "reduce_sum" [vl l] = Some (VInt (fold_right Z.add 0 l))) -> defines I reduce_sum.
  Proof.
    intros EQ; start EQ. match goal with |- context [zlen ?l <? 1] => destruct l as [|x' l']; [reflexivity|] end.
    rewrite lt1_cons, (lib_get0 _ _ L x' l'), (lib_tail1 _ _ L x' l'), EQ. reflexivity.
  Qed.

  Lemma reduce_mul_def : (forall l, i_call I "reduce_mul" [vl l] = Some (VInt (fold_right Z.mul 1 l))) -> defines I reduce_mul.
  Proof.
    intros EQ; start EQ. match goal with |- context [zlen ?l <? 1] => destruct l as [|x' l']; [reflexivity|] end.
    rewrite lt1_cons, (lib_get0 _ _ L x' l'), (lib_tail1 _ _ L x' l'), EQ. reflexivity.
  Qed.

  Lemma reduce_max_def : (forall l, i_call I "reduce_max" [vl l] = Some (VInt (max_of l))) -> defines I reduce_max.
  Proof.
    intros EQ; start EQ. match goal with |- context [zlen ?l <? 1] => destruct l as [|x' l']; [reflexivity|] end.
    rewrite lt1_cons, (lib_get0 _ _ L x' l'), (lib_tail1 _ _ L x' l'), EQ. cbn -[vl zlen max_of].
    destruct l' as [|y l']; [reflexivity|].
    destruct (Z.eqb_spec (zlen (x' :: y :: l')) 1) as [A|_]; [unfold zlen in A; simpl List.length in A; lia|].
    cbn -[Z.ltb]. destruct (Z.ltb_spec (maxval y l') x'); f_equal; f_equal; lia.
  Qed.

  Lemma matrix_vec_mul_def :
    defines I vec_elemwise_mul -> defines I reduce_sum ->
    (forall m v, i_call I "matrix_vec_mul" [vm m; vl v] = Some (vl (map (fun r => dot r v) (good_rows m v)))) ->
    defines I matrix_vec_mul.
  Proof.
    intros D1 D2 EQ. intros vs T; args; eexists; (split; [reflexivity|]). rewrite EQ; cbn -[vl vm zlen Z.ltb Z.eqb].
    rewrite (lib_mlen _ _ L). destruct x0 as [|r m].
    - destruct (lib_mget_nil _ _ L) as (w & ->). rewrite !(lib_len _ _ L). cbn -[vl vm]. now rewrite (lib_empty _ _ L).
    - rewrite (lib_mget0 _ _ L), !(lib_len _ _ L), (lib_mtail1 _ _ L), EQ.
      cbn -[vl vm zlen]. rewrite lt1_cons, !orb_false_r. cbn [orb].
      destruct ((zlen r <? 1) || negb (zlen r =? zlen x1)) eqn:C; [now rewrite (lib_empty _ _ L)|].
      apply orb_false_iff in C as [_ C]. apply negb_false_iff, Z.eqb_eq in C. unfold zlen in C.
      rewrite (vec_elem_mul _ _ L D1) by lia. rewrite (reduce_sum_is _ _ L D2). symmetry. exact (lib_prepend _ _ L _ _).
  Qed.
End Conv.

(** ** decoding of values *)
Definition dec_l (v : val) : option (list Z) := match v with VList l => mapO as_int l | _ => None end.
Definition dec_m (v : val) : option (list (list Z)) := match v with VList l => mapO dec_l l | _ => None end.
Definition dec_t (v : val) : option (list (list (list Z))) := match v with VList l => mapO dec_m l | _ => None end.

Lemma dec_vl l : dec_l (vl l) = Some l.
Proof. unfold dec_l, vl. induction l; [reflexivity|]. cbn [map mapO as_int]. now rewrite IHl. Qed.
Lemma dec_vm l : dec_m (vm l) = Some l.
Proof. unfold dec_m, vm. induction l; [reflexivity|]. cbn [map mapO]. now rewrite dec_vl, IHl. Qed.
Lemma dec_vt l : dec_t (vt l) = Some l.
Proof. unfold dec_t, vt. induction l; [reflexivity|]. cbn [map mapO]. now rewrite dec_vm, IHl. Qed.

Inductive tag := GZ | GB | GL | GM | GT.
Definition tag_of (d : dval) : tag := match d with DZ _ => GZ | DB _ => GB | DL _ => GL | DM _ => GM | DT _ => GT end.
Definition dec (t : tag) (v : val) : option dval :=
  match t with
  | GZ => option_map DZ (as_int v) | GB => option_map DB (as_bool v) | GL => option_map DL (dec_l v)
  | GM => option_map DM (dec_m v) | GT => option_map DT (dec_t v)
  end.
Lemma dec_emb d : dec (tag_of d) (emb d) = Some d.
Proof. destruct d; cbn [tag_of dec emb]; rewrite ?dec_vl, ?dec_vm, ?dec_vt; reflexivity. Qed.

Fixpoint decs (ts : list tag) (vs : list val) : option (list dval) :=
  match ts, vs with
  | [], [] => Some []
  | t :: ts', v :: vs' =>
      match dec t v, decs ts' vs' with Some d, Some ds => Some (d :: ds) | _, _ => None end
  | _, _ => None
  end.
Lemma decs_emb ds : decs (map tag_of ds) (map emb ds) = Some ds.
Proof. induction ds; [reflexivity|]. cbn [map decs]. now rewrite dec_emb, IHds. Qed.

(** parameter sorts of the library functions *)
Definition sigs : list (string * list tag) :=
  [("list_empty", []); ("matrix_empty", []); ("tensor3d_empty", []);
   ("list_length", [GL]); ("matrix_length", [GM]); ("tensor3d_length", [GT]); ("matrix_transpose", [GM]);
   ("list_get", [GL; GZ]); ("list_append", [GL; GZ]); ("list_tail", [GL; GZ]); ("list_take", [GL; GZ]);
   ("matrix_get", [GM; GZ]); ("matrix_append", [GM; GL]); ("matrix_tail", [GM; GZ]); ("matrix_take", [GM; GZ]);
   ("tensor3d_get", [GT; GZ]); ("tensor3d_append", [GT; GM]); ("tensor3d_tail", [GT; GZ]); ("tensor3d_take", [GT; GZ]);
   ("list_prepend", [GZ; GL]); ("matrix_prepend", [GL; GM]); ("tensor3d_prepend", [GM; GT]);
   ("list_concat", [GL; GL]); ("list_eq", [GL; GL]);
   ("vec_slice", [GL; GZ; GZ]); ("vec_slice_with_length", [GL; GZ; GZ]);
   ("matrix_row_slice", [GM; GZ; GZ]); ("matrix_row_slice_with_length", [GM; GZ; GZ]);
   ("matrix_col_slice", [GM; GZ; GZ]); ("matrix_col_slice_with_length", [GM; GZ; GZ]);
   ("tensor3d_slice", [GT; GZ; GZ]); ("tensor3d_slice_with_length", [GT; GZ; GZ])].

Definition sig_of (f : string) : option (list tag) :=
  match find (fun p => String.eqb f (fst p)) sigs with Some p => Some (snd p) | None => None end.

Section Demo.
  Variable ap : string -> list dval -> option dval.
  Variable dv : Z -> Z -> option Z.

  Definition by_sig (f : string) (ts : list tag) (vs : list val) : option val :=
    match decs ts vs with Some ds => option_map emb (ap f ds) | None => None end.

  Definition lc (f : string) (vs : list val) : option val :=
    match sig_of f with
    | Some ts =>
        match by_sig f ts vs with
        | Some v => Some v
        | None => if String.eqb f "list_eq" then by_sig f [GM; GM] vs else None
        end
    | None => None
    end.

  Definition ar (k : kind) (x y : Z) : option Z :=
    match k with
    | KAdd => Some (x + y) | KSub => Some (x - y) | KMul => Some (x * y) | KDiv => dv x y | _ => None
    end.

  Fixpoint d_elem {A} (g : A -> A -> option val) (pre : string) (l r : list A) : option val :=
    if (zlen l <? 1) || negb (zlen l =? zlen r) then Some (VList [])
    else match l, r with
         | x :: l', y :: r' =>
             match g x y, d_elem g pre l' r' with Some z, Some v => lc pre [z; v] | _, _ => None end
         | _, _ => None
         end.
  Fixpoint d_scal {A} (g : A -> option val) (pre : string) (l : list A) : option val :=
    match l with
    | [] => Some (VList [])
    | x :: l' => match g x, d_scal g pre l' with Some z, Some v => lc pre [z; v] | _, _ => None end
    end.

  Definition fve (k : kind) : list Z -> list Z -> option val := d_elem (fun x y => option_map VInt (ar k x y)) "list_prepend".
  Definition fme (k : kind) := d_elem (fve k) "matrix_prepend".
  Definition fvs (k : kind) (sw : bool) (a : Z) : list Z -> option val :=
    d_scal (fun x => option_map VInt (if sw then ar k x a else ar k a x)) "list_prepend".
  Definition fms (k : kind) (sw : bool) (a : Z) := d_scal (fvs k sw a) "matrix_prepend".

  Definition on_vv (f : list Z -> list Z -> option val) (vs : list val) : option val :=
    match vs with [a; b] => match dec_l a, dec_l b with Some l, Some r => f l r | _, _ => None end | _ => None end.
  Definition on_mm (f : list (list Z) -> list (list Z) -> option val) (vs : list val) : option val :=
    match vs with [a; b] => match dec_m a, dec_m b with Some l, Some r => f l r | _, _ => None end | _ => None end.
  Definition on_sv (f : Z -> list Z -> option val) (vs : list val) : option val :=
    match vs with [VInt a; b] => match dec_l b with Some r => f a r | _ => None end | _ => None end.
  Definition on_sm (f : Z -> list (list Z) -> option val) (vs : list val) : option val :=
    match vs with [VInt a; b] => match dec_m b with Some r => f a r | _ => None end | _ => None end.
  Definition on_v (f : list Z -> option val) (vs : list val) : option val :=
    match vs with [a] => match dec_l a with Some l => f l | _ => None end | _ => None end.

  (** first-order functions *)
  Definition table0 : list (string * (list val -> option val)) :=
    [("vec_elemwise_add", on_vv (fve KAdd)); ("vec_elemwise_sub", on_vv (fve KSub));
     ("vec_elemwise_mul", on_vv (fve KMul)); ("vec_elemwise_div", on_vv (fve KDiv));
     ("matrix_elemwise_add", on_mm (fme KAdd)); ("matrix_elemwise_sub", on_mm (fme KSub));
     ("matrix_elemwise_mul", on_mm (fme KMul)); ("matrix_elemwise_div", on_mm (fme KDiv));
     ("vec_scalar_add", on_sv (fvs KAdd false)); ("vec_scalar_mul", on_sv (fvs KMul false));
     ("vec_scalar_div", on_sv (fvs KDiv true)); ("scalar_vec_div", on_sv (fvs KDiv false));
     ("vec_scalar_sub", on_sv (fvs KSub true)); ("scalar_vec_sub", on_sv (fvs KSub false));
     ("matrix_scalar_add", on_sm (fms KAdd false)); ("matrix_scalar_mul", on_sm (fms KMul false));
     ("matrix_scalar_div", on_sm (fms KDiv true)); ("scalar_matrix_div", on_sm (fms KDiv false));
     ("matrix_scalar_sub", on_sm (fms KSub true)); ("scalar_matrix_sub", on_sm (fms KSub false));
     ("reduce_sum", on_v (fun l => Some (VInt (fold_right Z.add 0 l))));
     ("reduce_mul", on_v (fun l => Some (VInt (fold_right Z.mul 1 l))));
     ("reduce_max", on_v (fun l => Some (VInt (max_of l))));
     ("matrix_vec_mul", fun vs => match vs with
        [a; b] => match dec_m a, dec_l b with
                  | Some m, Some v => Some (vl (map (fun r => dot r v) (good_rows m v))) | _, _ => None end
        | _ => None end);
     ("twice", fun vs => match vs with [VInt x] => Some (VInt (2 * x)) | _ => None end);
     ("larger", fun vs => match vs with [VInt x; VInt y] => Some (VInt (Z.max x y)) | _ => None end);
     ("select_two_args", fun vs => match vs with [VInt x; VInt y] => Some (VInt (if y <? x then x else y)) | _ => None end);
     ("mix", fun vs => match vs with [VInt x; VInt y; VInt p; VInt q] => Some (VInt (if p <? q then x else y)) | _ => None end)].

  Definition bc (f : string) (vs : list val) : option val :=
    match find (fun p => String.eqb f (fst p)) table0 with
    | Some p => snd p vs
    | None => lc f vs
    end.

  Definition d_sel (h : string) := d_elem (fun x y => bc h [VInt x; VInt y]) "list_prepend".
  Definition d_dis (h : string) (p q : Z) := d_elem (fun x y => bc h [VInt x; VInt y; VInt p; VInt q]) "list_prepend".

  (** higher-order functions, and their specialisations to "larger" and "mix" *)
  Definition table1 : list (string * (list val -> option val)) :=
    [("vec_map", fun vs => match vs with
        [a; VFn h] => match dec_l a with Some l => d_scal (fun x => bc h [VInt x]) "list_prepend" l | None => None end
        | _ => None end);
     ("selection_two_args", fun vs => match vs with
        | [a; b; VFn h] => on_vv (d_sel h) [a; b]
        | _ => on_vv (d_sel "larger") vs end);
     ("matrix_selection_two_args", fun vs => match vs with
        | [a; b; VFn h] => on_mm (d_elem (d_sel h) "matrix_prepend") [a; b]
        | _ => on_mm (d_elem (d_sel "larger") "matrix_prepend") vs end);
     ("dissolve_selection_two_args", fun vs => match vs with
        | [a; b; VInt p; VInt q; VFn h] => on_vv (d_dis h p q) [a; b]
        | [a; b; VInt p; VInt q] => on_vv (d_dis "mix" p q) [a; b]
        | _ => None end);
     ("dissolve_matrix_selection_two_args", fun vs => match vs with
        | [a; b; VInt p; VInt q; VFn h] => on_mm (d_elem (d_dis h p q) "matrix_prepend") [a; b]
        | [a; b; VInt p; VInt q] => on_mm (d_elem (d_dis "mix" p q) "matrix_prepend") [a; b]
        | _ => None end)].

  Definition call1 (f : string) (vs : list val) : option val :=
    match find (fun p => String.eqb f (fst p)) table1 with
    | Some p => snd p vs
    | None => bc f vs
    end.

  Definition demo : interp := {| i_div := dv; i_mod := fun a b => if b =? 0 then None else Some (euclid_mod a b); i_call := call1 |}.

  (** function arguments are applied to integers only *)
  Lemma call1_ints f zs : call1 f (map VInt zs) = bc f (map VInt zs).
  Proof.
    unfold call1. cbn [find table1].
    repeat match goal with |- context [String.eqb f ?s] =>
      let E := fresh in destruct (String.eqb_spec f s) as [E|E]; [rewrite E; cbn [snd fst] | ] end;
    try (unfold bc, table0, lc, sig_of, sigs; cbn [find fst snd String.eqb Ascii.eqb Bool.eqb]);
    try (destruct zs as [|? [|? [|? [|? [|? ?]]]]]; reflexivity).
  Qed.

  Lemma lc_library f args v ts : sig_of f = Some ts -> map tag_of args = ts -> ap f args = Some v ->
    lc f (map emb args) = Some (emb v).
  Proof. intros E <- A. unfold lc. rewrite E. unfold by_sig. now rewrite decs_emb, A. Qed.
End Demo.

(** ** the demonstration follows the library *)

(** library names are not in the tables *)
Lemma call1_lib ap dv f vs ts : sig_of f = Some ts -> call1 ap dv f vs = lc ap f vs.
Proof.
  intros E. unfold call1, bc, table1, table0. cbn [find fst].
  repeat match goal with |- context [String.eqb f ?s] =>
    let Q := fresh in destruct (String.eqb_spec f s) as [Q|Q]; [rewrite Q in E; vm_compute in E; discriminate E|] end.
  reflexivity.
Qed.

Lemma dec_l_vm m l : dec_l (vm m) = Some l -> m = [] /\ l = [].
Proof. destruct m; cbn; [intros [= <-]; auto | discriminate]. Qed.

(** [ap] respects the sorts, and [list_eq] is equality on empty lists *)
Definition sorted (ap : string -> list dval -> option dval) : Prop :=
  (forall f args v, ap f args = Some v ->
     exists ts, sig_of f = Some ts /\ (map tag_of args = ts \/ f = "list_eq" /\ map tag_of args = [GM; GM])) /\
  ap "list_eq" [DL []; DL []] = ap "list_eq" [DM []; DM []].

Lemma demo_follows ap dv : sorted ap -> follows ap (demo ap dv).
Proof.
  intros [H0 HE] f args v A. cbn [demo i_call]. destruct (H0 f args v A) as (ts & E & T).
  rewrite (call1_lib _ _ _ _ _ E). destruct T as [T|[-> T]]; [now apply (lc_library ap f args v ts)|].
  destruct args as [|[]  [|[] [|]]]; try discriminate T. unfold lc. cbn [map emb sig_of].
  change (sig_of "list_eq") with (Some [GL; GL]). cbn -[vm]. unfold by_sig. cbn [decs dec].
  assert (R : (match option_map DM (dec_m (vm m)), (match option_map DM (dec_m (vm m0)), Some [] with Some d, Some ds => Some (d :: ds) | _, _ => None end) with
    Some d, Some ds => Some (d :: ds) | _, _ => None end) = Some [DM m; DM m0]) by (rewrite !dec_vm; reflexivity).
  rewrite R, A. clear R.
  destruct (dec_l (vm m)) as [l|] eqn:E1; [|reflexivity]. apply dec_l_vm in E1 as [-> ->].
  destruct (dec_l (vm m0)) as [l|] eqn:E2; [|reflexivity]. apply dec_l_vm in E2 as [-> ->].
  cbn [option_map]. rewrite HE, A. reflexivity.
Qed.

Lemma smt_sorted S : sorted (smt_apply S).
Proof.
  split; [|reflexivity]. intros f args v A.
  destruct args as [|[] [|[] [|[] [|]]]]; cbn [smt_apply] in A; try discriminate A;
  repeat match type of A with (if String.eqb f ?s then _ else _) = _ =>
    let Q := fresh in destruct (String.eqb_spec f s) as [Q|Q]; [rewrite Q; eexists; split; [reflexivity|]; auto|] end;
  discriminate A.
Qed.

Lemma rkt_sorted : sorted rkt_call.
Proof.
  split; [|reflexivity]. intros f args v A. unfold rkt_call, get_list_fn, list_fn_table in A. cbn [find fst] in A.
  repeat match type of A with context [String.eqb f ?s] =>
    let Q := fresh in destruct (String.eqb_spec f s) as [Q|Q];
     [rewrite Q; clear - A; cbn [snd] in A; eexists; split; [reflexivity|];
      cbv [rkt_apply String.eqb Ascii.eqb Bool.eqb] in A;
      repeat match type of A with match ?x with _ => _ end = _ => destruct x; try discriminate A end; auto|] end.
  discriminate A.
Qed.

