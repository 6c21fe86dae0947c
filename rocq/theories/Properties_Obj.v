(** C46: what the list syntax of the IR (ir.py [List], [Matrix]) means. *)

From Coq Require Import String List ZArith Bool Lia.
From Verif Require Import Ast Semantics SmtPrelude SmtProofs RktModel RktProofs ListOps LibSem Properties_Rkt ObjModel TensDemo.
Import ListNotations.
Local Open Scope string_scope.
Local Open Scope list_scope.
Local Open Scope Z_scope.

(** ** Python's lists (the language reference) *)
Definition py_len {A} (l : list A) : Z := Z.of_nat (List.length l).
(** [l[i]]; [None]: IndexError *)
Definition py_index {A} (l : list A) (i : Z) : option A :=
  let j := if i <? 0 then i + py_len l else i in
  if (0 <=? j) && (j <? py_len l) then nth_error l (Z.to_nat j) else None.
(** a bound of a slice, between 0 and the length *)
Definition py_bound {A} (l : list A) (i : Z) : Z :=
  if i <? 0 then Z.max 0 (i + py_len l) else Z.min i (py_len l).
(** [l[st:en]]; a missing bound is 0 or the length *)
Definition py_slice {A} (l : list A) (st en : option Z) : list A :=
  let s := match st with Some i => py_bound l i | None => 0 end in
  let e := match en with Some i => py_bound l i | None => py_len l end in
  firstn (Z.to_nat (e - s)) (skipn (Z.to_nat s) l).

(** the same on a vector or a matrix *)
Definition d_index (d : dval) (i : Z) : option dval :=
  match d with DL l => option_map DZ (py_index l i) | DM m => option_map DL (py_index m i) | _ => None end.
Definition d_slice (d : dval) (st en : option Z) : dval :=
  match d with DL l => DL (py_slice l st en) | DM m => DM (py_slice m st en) | d => d end.
Definition d_len (d : dval) : Z := match d with DL l => py_len l | DM m => py_len m | _ => 0 end.

(** ** The meaning of an object

    [I] gives library calls the meaning that one of the two backends gives them:
    Racket's (synthesis), or that of a model of the SMT prelude (verification). *)
Definition backend (I : interp) : Prop :=
  follows rkt_call I \/ exists S, prelude_core S /\ follows (smt_apply S) I.
(** a matrix can be a [Matrix] or a [List] of [List]s *)
Definition has_ty (d : dval) (t : ty) : Prop :=
  match d with
  | DZ _ => t = TInt | DB _ => t = TBool | DL _ => t = TList TInt
  | DM _ => t = TMatrix TInt \/ t = TList (TList TInt)
  | DT _ => False
  end.
Definition denotes (I : interp) (r : env) (o : obj) (d : dval) : Prop :=
  eval I r (o_src o) = Some (emb d) /\ has_ty d (o_ty o).
(** an index or a bound that is written as a Python integer or as an [Int] *)
Definition sdenotes (I : interp) (r : env) (s : sarg) (z : Z) : Prop :=
  match s with SInt y => y = z | SObj o => denotes I r o (DZ z) end.
Definition odenotes (I : interp) (r : env) (s : option sarg) (z : option Z) : Prop :=
  match s, z with Some s, Some z => sdenotes I r s z | None, None => True | _, _ => False end.
Definition index_of (s : sarg) : idx := match s with SInt z => IxInt z | SObj o => IxObj o end.

Lemma both I f g args v : backend I -> get_list_fn f = Some g -> rkt_apply g args = Some v -> good_args f args ->
  i_call I f (map emb args) = Some (emb v).
Proof.
  intros [F|(S & P & F)] G R A; apply F.
  - unfold rkt_call. now rewrite G.
  - eapply C16_list_operations_partial; eauto.
Qed.
Lemma sden I r s z : sdenotes I r s z -> eval I r (o_src (sarg_obj s)) = Some (VInt z).
Proof. destruct s; cbn; [now intros ->|intros [E _]; exact E]. Qed.
Lemma call_val I r f t args vs v : mapO (eval I r) (map o_src args) = Some vs -> i_call I f vs = Some v ->
  eval I r (Node KCall t (Atom (PStr f) :: map o_src args)) = Some v.
Proof. intros E C. cbn [eval]. now rewrite E. Qed.

Lemma slice_suffix A (l : list A) st : 0 <= st -> skipn (Z.to_nat st) l = py_slice l (Some st) None.
Proof.
  intros P. unfold py_slice, py_bound. rewrite (proj2 (Z.ltb_ge st 0) P). unfold py_len.
  destruct (Z.leb_spec st (Z.of_nat (Datatypes.length l))).
  - rewrite Z.min_l by lia. symmetry. apply firstn_all2. rewrite skipn_length. lia.
  - rewrite Z.min_r by lia. rewrite skipn_all2 by lia. now rewrite Z.sub_diag.
Qed.
Lemma slice_prefix A (l : list A) en : 0 <= en -> firstn (Z.to_nat en) l = py_slice l None (Some en).
Proof.
  intros P. unfold py_slice, py_bound. rewrite (proj2 (Z.ltb_ge en 0) P). unfold py_len. rewrite Z.sub_0_r. cbn [Z.to_nat skipn].
  destruct (Z.leb_spec en (Z.of_nat (Datatypes.length l))).
  - now rewrite Z.min_l by lia.
  - rewrite Z.min_r by lia. rewrite Nat2Z.id, firstn_all. apply firstn_all2. lia.
Qed.
Lemma slice_middle A (l : list A) st en : 0 <= st -> 0 <= en ->
  skipn (Z.to_nat st) (firstn (Z.to_nat en) l) = py_slice l (Some st) (Some en).
Proof.
  intros P Q. unfold py_slice, py_bound. rewrite (proj2 (Z.ltb_ge en 0) Q), (proj2 (Z.ltb_ge st 0) P). unfold py_len.
  rewrite skipn_firstn_comm.
  destruct (Z.leb_spec st (Z.of_nat (Datatypes.length l))).
  - rewrite (Z.min_l st) by lia. destruct (Z.leb_spec en (Z.of_nat (Datatypes.length l))).
    + rewrite Z.min_l by lia. f_equal. lia.
    + rewrite Z.min_r by lia. rewrite firstn_all2 by (rewrite skipn_length; lia). symmetry. apply firstn_all2. rewrite skipn_length. lia.
  - rewrite skipn_all2 by lia. rewrite firstn_nil. rewrite (Z.min_r st) by lia. rewrite skipn_all2 by lia. now rewrite firstn_nil.
Qed.
Lemma index_ok A (l : list A) d z : 0 <= z < py_len l -> py_index l z = Some (nth (Z.to_nat z) l d).
Proof.
  intros P. unfold py_index. rewrite (proj2 (Z.ltb_ge z 0)) by lia. rewrite (proj2 (Z.leb_le 0 z)), (proj2 (Z.ltb_lt z _)) by lia. cbn.
  apply nth_error_nth'. unfold py_len in P. lia.
Qed.

(** ** C46

    The full property: indexing, slicing, append, prepend, concatenation and length
    on [List] and [Matrix] objects have the meaning they have on Python lists.  False
    for negative indices and bounds and for other cases ([C46_refuted] below).
    Proved, for vectors and matrices of integers in both backends: *)

(** [x[i]] with [i] in range *)
Theorem C46_index_partial : forall I r o d s z v, backend I ->
  denotes I r o d -> sdenotes I r s z -> 0 <= z -> d_index d z = Some v ->
  exists o', getitem o (index_of s) = Ok o' /\ denotes I r o' v.
Proof.
  intros I r o d s z v B [E T] Z P D.
  assert (RG : forall A (l : list A) x, py_index l z = Some x -> 0 <= z < py_len l).
  { intros A l x H. unfold py_index in H. rewrite (proj2 (Z.ltb_ge z 0) P) in H.
    destruct ((0 <=? z) && (z <? py_len l)) eqn:C; [|discriminate]. apply andb_true_iff in C as [C1 C2]. lia. }
  pose proof (sden _ _ _ _ Z) as EZ.
  assert (GI : forall c, contained (o_ty o) = Ok c -> getitem o (index_of s) = call (shape_name (o_ty o) "matrix_get" "tensor3d_get" "list_get") c [o; sarg_obj s]).
  { intros c C. unfold getitem. rewrite C. cbn. now destruct s. }
  destruct d as [| |l|m|]; try discriminate D; cbn in D, T.
  - destruct (py_index l z) as [x|] eqn:X; [|discriminate]. injection D as <-. rewrite T in GI. specialize (GI TInt eq_refl).
    pose proof (RG _ _ _ X) as R.
    eexists. split; [rewrite GI; reflexivity|]. split; [|reflexivity]. cbn [o_src].
    eapply call_val; [cbn; rewrite E, EZ; reflexivity|].
    refine (both I "list_get" "list-ref-noerr" [DL l; DZ z] _ B eq_refl _ _).
    + cbn. do 2 f_equal. rewrite ref_in_range by exact R. rewrite (index_ok _ l 0 z R) in X. congruence.
    + cbn. split; auto; discriminate.
  - destruct (py_index m z) as [x|] eqn:X; [|discriminate]. injection D as <-. pose proof (RG _ _ _ X) as R.
    assert (C : contained (o_ty o) = Ok (TList TInt)) by (destruct T as [-> | ->]; reflexivity).
    specialize (GI _ C). assert (N : shape_name (o_ty o) "matrix_get" "tensor3d_get" "list_get" = "matrix_get") by (destruct T as [-> | ->]; reflexivity).
    rewrite N in GI. eexists. split; [rewrite GI; reflexivity|]. split; [|reflexivity]. cbn [o_src].
    eapply call_val; [cbn; rewrite E, EZ; reflexivity|].
    refine (both I "matrix_get" "matrix-ref-noerr" [DM m; DZ z] _ B eq_refl _ _).
    + cbn. do 2 f_equal. rewrite mref_in_range by exact R. rewrite (index_ok _ m [] z R) in X. congruence.
    + cbn. split; auto; discriminate.
Qed.
Print Assumptions C46_index_partial.

(** [x[i:]], [x[:j]] and [x[i:j]] with bounds that are not negative (they may be
    beyond the end) *)
Theorem C46_slice_partial : forall I r o d st en i j, backend I ->
  denotes I r o d -> (exists l, d = DL l) \/ (exists m, d = DM m) ->
  odenotes I r st i -> odenotes I r en j -> (i, j) <> (None, None) ->
  (forall z, i = Some z \/ j = Some z -> 0 <= z) ->
  exists o', getitem o (IxSlice st en None) = Ok o' /\ denotes I r o' (d_slice d i j).
Proof.
  intros I r o d st en i j B [E T] K HI HJ NN POS.
  assert (C : exists c, contained (o_ty o) = Ok c).
  { destruct K as [[l ->]|[m ->]]; cbn in T; [rewrite T|destruct T as [-> | ->]]; eexists; reflexivity. }
  destruct C as [c C].
  assert (SH : forall a b1 l1, shape_name (o_ty o) a b1 l1 = match d with DM _ => a | _ => l1 end).
  { intros. destruct K as [[l ->]|[m ->]]; cbn in T; [rewrite T|destruct T as [-> | ->]]; reflexivity. }
  assert (CO : forall f args, call f (o_ty o) args = Ok {| o_ty := o_ty o; o_src := Node KCall (o_ty o) (Atom (PStr f) :: map o_src args) |}).
  { intros. unfold call. cbn. destruct K as [[l ->]|[m ->]]; cbn in T; [rewrite T|destruct T as [-> | ->]]; reflexivity. }
  assert (HT : has_ty (d_slice d i j) (o_ty o)) by (destruct K as [[l ->]|[m ->]]; exact T).
  unfold getitem. rewrite C. cbn [bindR].
  destruct st as [st|], i as [i|]; cbn in HI; try contradiction; destruct en as [en|], j as [j|]; cbn in HJ; try contradiction; rewrite ?SH, ?CO.
  - pose proof (POS i (or_introl eq_refl)). pose proof (POS j (or_intror eq_refl)).
    eexists. split; [reflexivity|]. split; [|exact HT]. cbn [o_src].
    eapply call_val; [cbn; rewrite E, (sden _ _ _ _ HI), (sden _ _ _ _ HJ); reflexivity|].
    destruct K as [[l ->]|[m ->]].
    + refine (both I "vec_slice" "vec-slice-noerr" [DL l; DZ i; DZ j] _ B eq_refl _ _); [|exact H].
      cbn. do 2 f_equal. rewrite slice_noerr_is by lia. now apply slice_middle.
    + refine (both I "matrix_row_slice" "matrix-row-slice-noerr" [DM m; DZ i; DZ j] _ B eq_refl _ _); [|cbn; split; [exact H|split; discriminate]].
      cbn. do 2 f_equal. rewrite slice_noerr_is by lia. now apply slice_middle.
  - pose proof (POS i (or_introl eq_refl)).
    eexists. split; [reflexivity|]. split; [|exact HT]. cbn [o_src].
    eapply call_val; [cbn; rewrite E, (sden _ _ _ _ HI); reflexivity|].
    destruct K as [[l ->]|[m ->]].
    + refine (both I "list_tail" "list-tail-noerr" [DL l; DZ i] _ B eq_refl _ _); [|cbn; split; [discriminate|auto]].
      cbn. do 2 f_equal. rewrite tail_noerr_is by lia. now apply slice_suffix.
    + refine (both I "matrix_tail" "matrix-tail-noerr" [DM m; DZ i] _ B eq_refl _ _); [|cbn; split; [discriminate|auto]].
      cbn. do 2 f_equal. rewrite tail_noerr_is by lia. now apply slice_suffix.
  - pose proof (POS j (or_intror eq_refl)).
    eexists. split; [reflexivity|]. split; [|exact HT]. cbn [o_src].
    eapply call_val; [cbn; rewrite E, (sden _ _ _ _ HJ); reflexivity|].
    destruct K as [[l ->]|[m ->]].
    + refine (both I "list_take" "list-take-noerr" [DL l; DZ j] _ B eq_refl _ _); [|cbn; split; discriminate].
      cbn. do 2 f_equal. rewrite take_noerr_is. now apply slice_prefix.
    + refine (both I "matrix_take" "matrix-take-noerr" [DM m; DZ j] _ B eq_refl _ _); [|cbn; split; discriminate].
      cbn. do 2 f_equal. rewrite take_noerr_is. now apply slice_prefix.
Qed.
Print Assumptions C46_slice_partial.

(** the other operations on vectors, and on matrices of class [Matrix] whose rows are
    not empty *)
Theorem C46_vectors : forall I r o p x l l' z, backend I ->
  denotes I r o (DL l) -> denotes I r p (DL l') -> denotes I r x (DZ z) ->
  (exists o', o_len o = Ok o' /\ denotes I r o' (DZ (py_len l))) /\
  (exists o', append o x = Ok o' /\ denotes I r o' (DL (l ++ [z]))) /\
  (exists o', prepend o x = Ok o' /\ denotes I r o' (DL (z :: l))) /\
  (exists o', concat o p = Ok o' /\ denotes I r o' (DL (l ++ l'))) /\
  (exists o' b, list_eq o p = Ok o' /\ denotes I r o' (DB b) /\ (b = true <-> l = l')) /\
  (exists o', list_empty TInt = Ok o' /\ denotes I r o' (DL [])).
Proof.
  intros I r o p x l l' z B [E T] [E' T'] [EX TX]. cbn in T, T', TX. unfold o_len, append, prepend, concat, list_eq, list_empty. rewrite T, T', TX. cbn -[denotes].
  split; [|split; [|split; [|split; [|split]]]].
  - eexists. split; [reflexivity|]. split; [|reflexivity]. cbn [o_src].
    eapply (call_val I r "list_length" TInt [o]); [cbn; rewrite E; reflexivity|]. refine (both I "list_length" "length" [DL l] _ B eq_refl eq_refl _). cbn. repeat constructor; discriminate.
  - eexists. split; [reflexivity|]. split; [|reflexivity]. cbn [o_src].
    eapply (call_val I r "list_append" (TList TInt) [o; x]); [cbn; rewrite E, EX; reflexivity|].
    refine (both I "list_append" "list-append" [DL l; DZ z] _ B eq_refl eq_refl _). cbn. split; discriminate.
  - eexists. split; [reflexivity|]. split; [|reflexivity]. cbn [o_src].
    eapply (call_val I r "list_prepend" (TList TInt) [x; o]); [cbn; rewrite E, EX; reflexivity|].
    refine (both I "list_prepend" "list-prepend" [DZ z; DL l] _ B eq_refl eq_refl _). cbn. repeat constructor; discriminate.
  - eexists. split; [reflexivity|]. split; [|reflexivity]. cbn [o_src].
    eapply (call_val I r "list_concat" (TList TInt) [o; p]); [cbn; rewrite E, E'; reflexivity|].
    refine (both I "list_concat" "list-concat" [DL l; DL l'] _ B eq_refl eq_refl _). cbn. repeat constructor; discriminate.
  - do 2 eexists. split; [reflexivity|]. split; [split; [|reflexivity]|]; cbn [o_src].
    + eapply (call_val I r "list_eq" TBool [o; p]); [cbn; rewrite E, E'; reflexivity|].
      refine (both I "list_eq" "equal?" [DL l; DL l'] _ B eq_refl eq_refl _). cbn. repeat constructor; discriminate.
    + apply (eqb_list_spec Z Z.eqb Z.eqb_eq).
  - eexists. split; [reflexivity|]. split; [|reflexivity]. cbn [o_src].
    eapply (call_val I r "list_empty" (TList TInt) []); [reflexivity|].
    refine (both I "list_empty" "list-empty" [] _ B eq_refl eq_refl _). cbn. discriminate.
Qed.
Print Assumptions C46_vectors.

Theorem C46_matrices_partial : forall I r o p x m m' l, backend I ->
  denotes I r o (DM m) -> denotes I r p (DM m') -> denotes I r x (DL l) ->
  o_ty o = TMatrix TInt -> o_ty p = TMatrix TInt ->
  (exists o', o_len o = Ok o' /\ denotes I r o' (DZ (py_len m))) /\
  (exists o', append o x = Ok o' /\ denotes I r o' (DM (m ++ [l]))) /\
  (l <> [] -> exists o', prepend o x = Ok o' /\ denotes I r o' (DM (l :: m))) /\
  (exists o' b, list_eq o p = Ok o' /\ denotes I r o' (DB b) /\ (b = true <-> m = m')) /\
  (exists o', matrix_empty TInt = Ok o' /\ denotes I r o' (DM [])).
Proof.
  intros I r o p x m m' l B [E T] [E' T'] [EX TX] TM TM'. cbn in TX. unfold o_len, append, prepend, concat, list_eq, matrix_empty. rewrite TM, TM', TX. cbn -[denotes].
  split; [|split; [|split; [|split]]].
  - eexists. split; [reflexivity|]. split; [|reflexivity]. cbn [o_src].
    eapply (call_val I r "matrix_length" TInt [o]); [cbn; rewrite E; reflexivity|]. refine (both I "matrix_length" "matrix-length" [DM m] _ B eq_refl eq_refl _). cbn. discriminate.
  - eexists. split; [reflexivity|]. split; [|now left]. cbn [o_src].
    eapply (call_val I r "matrix_append" (TMatrix TInt) [o; x]); [cbn; rewrite E, EX; reflexivity|].
    refine (both I "matrix_append" "matrix-append" [DM m; DL l] _ B eq_refl eq_refl _). cbn. repeat constructor; discriminate.
  - intros NE. eexists. split; [reflexivity|]. split; [|now left]. cbn [o_src].
    eapply (call_val I r "matrix_prepend" (TMatrix TInt) [x; o]); [cbn; rewrite E, EX; reflexivity|].
    refine (both I "matrix_prepend" "matrix-prepend" [DL l; DM m] _ B eq_refl _ _); [cbn; now rewrite matrix_prepend_nonempty | exact NE].
  - do 2 eexists. split; [reflexivity|]. split; [split; [|reflexivity]|]; cbn [o_src].
    + eapply (call_val I r "list_eq" TBool [o; p]); [cbn; rewrite E, E'; reflexivity|].
      refine (both I "list_eq" "equal?" [DM m; DM m'] _ B eq_refl eq_refl _). cbn. repeat constructor; discriminate.
    + apply (eqb_list_spec _ _ (eqb_list_spec Z Z.eqb Z.eqb_eq)).
  - eexists. split; [reflexivity|]. split; [|now left]. cbn [o_src].
    eapply (call_val I r "matrix_empty" (TMatrix TInt) []); [reflexivity|].
    refine (both I "matrix_empty" "matrix-empty" [] _ B eq_refl eq_refl _). cbn. discriminate.
Qed.
Print Assumptions C46_matrices_partial.

(** parts of rows and columns: [slice_with_length], [col_slice] and
    [col_slice_with_length], where each row has some entry in the columns asked for *)
Lemma slice_nonempty (l : list Z) st en : 0 <= st -> 0 <= en -> py_slice l (Some st) (Some en) <> [] ->
  (Z.to_nat st < Nat.min (Z.to_nat en) (List.length l))%nat.
Proof.
  intros P Q NE. rewrite <- slice_middle in NE by assumption.
  destruct (Nat.lt_ge_cases (Z.to_nat st) (Nat.min (Z.to_nat en) (List.length l))) as [L|L]; [exact L|].
  exfalso. apply NE. apply skipn_all2. rewrite firstn_length. exact L.
Qed.
Lemma col_slice_ok m st en : 0 <= st -> 0 <= en -> Forall (fun row => py_slice row (Some st) (Some en) <> []) m ->
  matrix_col_slice_noerr m st en = map (fun row => py_slice row (Some st) (Some en)) m.
Proof.
  intros P Q F. rewrite col_slice_noerr_is; [|exact P|].
  - apply map_ext. intros. now apply slice_middle.
  - eapply Forall_impl; [|exact F]. intros row NE. cbv beta in *. now rewrite slice_middle.
Qed.
Theorem C46_parts_partial : forall I r o st en a b, backend I ->
  sdenotes I r st a -> sdenotes I r en b -> 0 <= a -> 0 <= b ->
  (forall l, denotes I r o (DL l) ->
     exists o', slice_with_length o st en = Ok o' /\ denotes I r o' (DL (py_slice l (Some a) (Some (a + b))))) /\
  (forall m, denotes I r o (DM m) ->
     (exists o', slice_with_length o st en = Ok o' /\ denotes I r o' (DM (py_slice m (Some a) (Some (a + b))))) /\
     (Forall (fun row => py_slice row (Some a) (Some b) <> []) m ->
      exists o', col_slice o st en = Ok o' /\ denotes I r o' (DM (map (fun row => py_slice row (Some a) (Some b)) m))) /\
     (Forall (fun row => py_slice row (Some a) (Some (a + b)) <> []) m ->
      exists o', col_slice_with_length o st en = Ok o' /\
        denotes I r o' (DM (map (fun row => py_slice row (Some a) (Some (a + b))) m)))).
Proof.
  intros I r o st en a b B DA DB PA PB.
  pose proof (sden _ _ _ _ DA) as EA. pose proof (sden _ _ _ _ DB) as EB.
  split.
  - intros l [E T]. cbn in T. unfold slice_with_length, shape_name. rewrite T. eexists. split; [reflexivity|]. split; [|reflexivity]. cbn [o_src].
    eapply (call_val I r _ _ [o; sarg_obj st; sarg_obj en]); [cbn; rewrite E, EA, EB; reflexivity|].
    refine (both I "vec_slice_with_length" "vec-slice-with-length-noerr" [DL l; DZ a; DZ b] _ B eq_refl _ _); [|exact PA].
    cbn. do 2 f_equal. unfold vec_slice_with_length_noerr. rewrite slice_noerr_is by lia. apply slice_middle; lia.
  - intros m [E T].
    assert (CO : forall f args, call f (o_ty o) args = Ok {| o_ty := o_ty o; o_src := Node KCall (o_ty o) (Atom (PStr f) :: map o_src args) |}).
    { intros. unfold call. cbn. cbn in T. destruct T as [-> | ->]; reflexivity. }
    assert (SH : forall x y z, shape_name (o_ty o) x y z = x) by (intros; cbn in T; destruct T as [-> | ->]; reflexivity).
    unfold slice_with_length, col_slice, col_slice_with_length. rewrite SH, !CO.
    split; [|split; intros F]; eexists; (split; [reflexivity|]); (split; [|exact T]); cbn [o_src];
      (eapply (call_val I r _ _ [o; sarg_obj st; sarg_obj en]); [cbn; rewrite E, EA, EB; reflexivity|]).
    + refine (both I "matrix_row_slice_with_length" "matrix-row-slice-with-length-noerr" [DM m; DZ a; DZ b] _ B eq_refl _ _).
      * cbn. do 2 f_equal. unfold vec_slice_with_length_noerr. rewrite slice_noerr_is by lia. apply slice_middle; lia.
      * cbn. split; [exact PA|]. split; discriminate.
    + refine (both I "matrix_col_slice" "matrix-col-slice-noerr" [DM m; DZ a; DZ b] _ B eq_refl _ _).
      * cbn. do 2 f_equal. now apply col_slice_ok.
      * cbn. split; [exact PA|]. split; [intros _|discriminate]. eapply Forall_impl; [|exact F]. intros row NE. now apply slice_nonempty.
    + refine (both I "matrix_col_slice_with_length" "matrix-col-slice-with-length-noerr" [DM m; DZ a; DZ b] _ B eq_refl _ _).
      * cbn. do 2 f_equal. unfold matrix_col_slice_with_length_noerr. apply col_slice_ok; auto; lia.
      * cbn. split; [exact PA|]. split; [discriminate|intros _]. eapply Forall_impl; [|exact F]. intros row NE. apply slice_nonempty; auto; lia.
Qed.
Print Assumptions C46_parts_partial.

(** [m.col_vec(i)], in Racket only: the transposition of the prelude has no meaning
    (C26) *)
Theorem C46_column_partial : forall I r o s z m col, follows rkt_call I ->
  denotes I r o (DM m) -> sdenotes I r s z -> 0 <= z -> m <> [] -> (List.length m + 1 < default_fuel)%nat ->
  Forall2 (fun row x => py_index row z = Some x) m col ->
  exists o', col_vec o s = Ok o' /\ denotes I r o' (DL col).
Proof.
  intros I r o s z m col FW [E T] DS P NE LF F.
  assert (B : backend I) by now left.
  assert (SL : Forall2 (fun row x => py_slice row (Some z) (Some (z + 1)) = [x]) m col).
  { clear -F P. induction F as [|row x m col H _ IH]; constructor; [|exact IH]. rewrite <- slice_middle by lia. unfold py_index in H.
    rewrite (proj2 (Z.ltb_ge z 0) P) in H. destruct (_ && _) eqn:C; [|discriminate]. apply andb_true_iff in C as [C1 C2]. unfold py_len in C2.
    rewrite skipn_firstn_comm. replace (Z.to_nat (z + 1) - Z.to_nat z)%nat with 1%nat by lia.
    rewrite <- (firstn_skipn (Z.to_nat z) row) in H. rewrite nth_error_app2 in H by (rewrite firstn_length; lia).
    rewrite firstn_length, Nat.min_l in H by lia. rewrite Nat.sub_diag in H. destruct (skipn _ row); [discriminate|]. cbn in *. congruence. }
  destruct (C46_parts_partial I r o s (SInt 1) z 1 B DS eq_refl P ltac:(lia)) as [_ Q].
  destruct (Q m (conj E T)) as (_ & _ & Q3).
  destruct Q3 as (oc & OC & DC).
  { clear -SL. induction SL as [|row x m col H _ IH]; constructor; [rewrite H; discriminate|exact IH]. }
  assert (MC : map (fun row => py_slice row (Some z) (Some (z + 1))) m = map (fun x => [x]) col).
  { clear -SL. induction SL as [|row x m col H _ IH]; [reflexivity|]. cbn. now rewrite H, IH. }
  rewrite MC in DC. unfold col_vec. rewrite OC. cbn [bindR]. destruct DC as [EC TC].
  assert (LEN : List.length col = List.length m) by (clear -F; induction F; cbn; congruence).
  assert (CNE : map (fun x => [x]) col <> []) by (destruct m, col; cbn in *; congruence).
  assert (TR : matrix_transpose_noerr default_fuel (map (fun x => [x]) col) = Some [col]).
  { rewrite (transpose_is 0).
    - f_equal. unfold transposed. cbn. f_equal. rewrite map_map. cbn. apply map_id.
    - exact CNE.
    - apply Forall_forall. intros l IN. apply in_map_iff in IN as (x & <- & _). reflexivity.
    - rewrite map_length. lia. }
  assert (TO : exists ot, transpose oc = Ok ot /\ denotes I r ot (DM [col])).
  { cbn in TC. unfold transpose, call.
    destruct TC as [TC | TC]; rewrite TC; eexists; (split; [reflexivity|]); (split; [|cbn; auto]); cbn [o_src];
    (eapply (call_val I r _ _ [oc]); [cbn; rewrite EC; reflexivity|]);
    apply (FW "matrix_transpose" [DM (map (fun x => [x]) col)]); unfold rkt_call; cbn -[matrix_transpose_noerr]; now rewrite TR. }
  destruct TO as (ot & TO & DT). rewrite TO. cbn [bindR].
  apply (C46_index_partial I r ot (DM [col]) (SInt 0) 0 (DL col) B DT eq_refl ltac:(lia) eq_refl).
Qed.
Print Assumptions C46_column_partial.
Example C46_parts_nontrivial : forall I, follows rkt_call I ->
  let o := list_var (TMatrix TInt) "m" in
  let r := fun x : string => if (x =? "m")%string then Some (emb (DM [[1; 2; 3]; [4; 5; 6]])) else None in
  (exists o', col_slice o (SInt 1) (SInt 3) = Ok o' /\ denotes I r o' (DM [[2; 3]; [5; 6]])) /\
  (exists o', col_vec o (SInt 2) = Ok o' /\ denotes I r o' (DL [3; 6])).
Proof.
  intros I F o r. assert (D : denotes I r o (DM [[1; 2; 3]; [4; 5; 6]])) by (split; [reflexivity|now left]). split.
  - destruct (C46_parts_partial I r o (SInt 1) (SInt 3) 1 3 (or_introl F) eq_refl eq_refl ltac:(lia) ltac:(lia)) as [_ Q].
    destruct (Q _ D) as (_ & Q2 & _). apply Q2. repeat constructor; discriminate.
  - apply (C46_column_partial I r o (SInt 2) 2 [[1; 2; 3]; [4; 5; 6]] [3; 6] F D eq_refl); [lia|discriminate| |repeat constructor].
    apply Nat.ltb_lt. vm_compute. reflexivity.
Qed.

(** *** Both backends exist, and the operations on a list of three numbers *)
Example C46_backends : (exists I, follows rkt_call I /\ backend I) /\ (exists I S, prelude_core S /\ follows (smt_apply S) I /\ backend I).
Proof.
  split.
  - exists (demo rkt_call (fun _ _ => None)). assert (F := demo_follows rkt_call (fun _ _ => None) rkt_sorted). split; [|left]; exact F.
  - exists (demo (smt_apply std) (fun _ _ => None)), std. assert (F := demo_follows (smt_apply std) (fun _ _ => None) (smt_sorted std)).
    split; [apply std_core|]. split; [exact F|]. right. exists std. split; [apply std_core|exact F].
Qed.
Definition xs : obj := list_var (TList TInt) "xs".
Definition xs_env (l : list Z) : env := fun x => if (x =? "xs")%string then Some (vl l) else None.
Lemma xs_denotes I l : denotes I (xs_env l) xs (DL l).
Proof. split; reflexivity. Qed.
Example C46_example : forall I, backend I ->
  (exists o, getitem xs (IxInt 2) = Ok o /\ denotes I (xs_env [4; 5; 6]) o (DZ 6)) /\
  (exists o, getitem xs (IxSlice (Some (SInt 1)) (Some (SInt 9)) None) = Ok o /\ denotes I (xs_env [4; 5; 6]) o (DL [5; 6])) /\
  (exists o, getitem xs (IxSlice (Some (SInt 2)) (Some (SInt 1)) None) = Ok o /\ denotes I (xs_env [4; 5; 6]) o (DL [])) /\
  (exists o, concat xs xs = Ok o /\ denotes I (xs_env [4; 5; 6]) o (DL [4; 5; 6; 4; 5; 6])).
Proof.
  intros I B. pose proof (xs_denotes I [4; 5; 6]) as X. split; [|split; [|split]].
  - apply (C46_index_partial I _ xs (DL [4; 5; 6]) (SInt 2) 2 (DZ 6) B X eq_refl); [lia|reflexivity].
  - apply (C46_slice_partial I _ xs (DL [4; 5; 6]) (Some (SInt 1)) (Some (SInt 9)) (Some 1) (Some 9) B X); cbn; eauto; try discriminate.
    intros z [[= <-]|[= <-]]; lia.
  - apply (C46_slice_partial I _ xs (DL [4; 5; 6]) (Some (SInt 2)) (Some (SInt 1)) (Some 2) (Some 1) B X); cbn; eauto; try discriminate.
    intros z [[= <-]|[= <-]]; lia.
  - destruct (C46_vectors I _ xs xs (int_lit 1) [4; 5; 6] [4; 5; 6] 1 B X X) as (_ & _ & _ & C & _); [split; reflexivity|exact C].
Qed.

(** *** Where it is false *)

(** A negative index is not counted from the end: in Racket [xs[-1]] is 0 and [xs[:-1]]
    is empty, where Python has the last element and the list without it.  The solver may
    choose any value for [xs[-1]] (C22). *)
Theorem C46_refuted_negative : forall I, follows rkt_call I ->
  (exists o, getitem xs (IxInt (-1)) = Ok o /\ denotes I (xs_env [7; 8]) o (DZ 0)) /\ py_index [7; 8] (-1) = Some 8 /\
  (exists o, getitem xs (IxSlice None (Some (SInt (-1))) None) = Ok o /\ denotes I (xs_env [7; 8]) o (DL [])) /\
  py_slice [7; 8] None (Some (-1)) = [7].
Proof.
  intros I F. split; [|split; [reflexivity|split; [|reflexivity]]]; (eexists; split; [reflexivity|split; [|reflexivity]]); cbn [o_src].
  - eapply (call_val I _ "list_get" TInt [xs; int_lit (-1)]); [reflexivity|]. exact (F "list_get" [DL [7; 8]; DZ (-1)] (DZ 0) eq_refl).
  - eapply (call_val I _ "list_take" (TList TInt) [xs; int_lit (-1)]); [reflexivity|]. exact (F "list_take" [DL [7; 8]; DZ (-1)] (DL []) eq_refl).
Qed.
Print Assumptions C46_refuted_negative.

(** [x[:]] becomes a call with the argument [None], which has no value; slices with a
    step are refused. *)
Theorem C46_refuted_slices : forall o c, contained (o_ty o) = Ok c ->
  (forall st en step, getitem o (IxSlice st en (Some step)) = Err ExNYI) /\
  (forall I r o', getitem o (IxSlice None None None) = Ok o' -> eval I r (o_src o') = None).
Proof.
  intros o c C. unfold getitem. rewrite C. cbn [bindR]. split; [intros [|] [|]; reflexivity|].
  intros I r o' H. unfold call in H. cbn in H. assert (o_src o' = Node KCall (o_ty o) [Atom (PStr (shape_name (o_ty o) "matrix_tail" "tensor3d_tail" "list_tail")); o_src o; Atom PNone]) as ->.
  { destruct (o_ty o); try discriminate C; cbn in H; injection H as <-; reflexivity. }
  cbn. now destruct (eval I r (o_src o)).
Qed.
Print Assumptions C46_refuted_slices.

(** Assignment to an element ([list_set]) is defined in neither library; concatenation
    of matrices is in neither; and [len], [append] and [prepend] of a [List] of [List]s
    use the functions for lists of integers, which the solver refuses. *)
Theorem C46_refuted_undefined : forall S,
  (forall args, rkt_call "list_set" args = None /\ smt_apply S "list_set" args = None) /\
  (forall m m', rkt_call "list_concat" [DM m; DM m'] = None /\ smt_apply S "list_concat" [DM m; DM m'] = None) /\
  (forall o, o_ty o = TList (TList TInt) ->
     (exists e, o_len o = Ok e /\ o_src e = Node KCall TInt [Atom (PStr "list_length"); o_src o]) /\
     (forall m, smt_apply S "list_length" [DM m] = None) /\
     (forall v, o_ty v = TList TInt -> exists e, append o v = Ok e /\ o_src e = Node KCall (o_ty o) [Atom (PStr "list_append"); o_src o; o_src v]) /\
     (forall m l, smt_apply S "list_append" [DM m; DL l] = None)).
Proof.
  intros S. split; [|split].
  - intros args. split; [reflexivity|]. destruct args as [|[] [|[] [|[] [|? ?]]]]; reflexivity.
  - intros m m'. split; reflexivity.
  - intros o T. unfold o_len, append. rewrite T. split; [eexists; split; reflexivity|]. split; [reflexivity|].
    split; [|reflexivity]. intros v ->. eexists. split; reflexivity.
Qed.
Print Assumptions C46_refuted_undefined.
