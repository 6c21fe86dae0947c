(** C15: the symbolic inputs of a synthesis problem (rosette_translator.py [gen_var],
    [generate_vars]).

    GenProofs.v has the meaning of the generated definitions ([run]: the definitions
    are made in order, for given values of the symbolic constants) and the values that
    are covered ([shape]). *)

From Coq Require Import String Ascii List ZArith Bool Lia.
From Verif Require Import Ast Semantics Dict UtilProofs GenModel GenProofs.
Import ListNotations.
Local Open Scope list_scope.

(** The variables [vars] can take the values [vals]: for some values of the symbolic
    constants, the generated definitions run without an error and define the variables
    so. *)
Definition obtainable (n : nat) (vars : list (string * ty)) (vals : list val) : Prop :=
  exists ds all s r, generate_vars n vars = Ok (ds, all) /\ run s ds (fun _ => None) = Some r /\
                     mapO r (map fst vars) = Some vals.
(** different variables, without a minus sign in the name *)
Definition good_names (vars : list (string * ty)) : Prop :=
  NoDup (map fst vars) /\ Forall (fun v => lacks "-"%char (fst v)) vars.

Lemma apart_vars vars : good_names vars -> ForallOrdPairs apart (map fst vars).
Proof.
  intros [ND F]. induction F as [|v vars L F IH]; cbn in *; constructor; inversion ND; subst; auto.
  apply Forall_forall. intros y Y. apply in_map_iff in Y as (w & <- & W). rewrite Forall_forall in F. apply dash_apart; auto.
  intros E. apply H1. rewrite E. now apply in_map.
Qed.
Definition flip (v : string * ty) : ty * string := (snd v, fst v).
Lemma vars_ok n vars q : generate_vars n vars = Ok q -> exists qs, Forall2 (gen_ok n) (map flip vars) qs /\ q = (concat (map fst qs), concat (map snd qs)).
Proof.
  unfold generate_vars. intros H. apply gens_ok in H as (qs & F & ->). exists qs. split; auto. clear - F. revert qs F.
  induction vars; intros qs F; inversion F; subst; constructor; auto.
Qed.
Lemma flip_names vars : map snd (map flip vars) = map fst vars.
Proof. now rewrite map_map. Qed.
Lemma flip_shape n vars vals : Forall2 (fun k v => shape n (fst k) v) (map flip vars) vals <-> Forall2 (fun (v : string * ty) a => shape n (snd v) a) vars vals.
Proof.
  revert vals. induction vars as [|v vars IH]; intros vals; split; intros F; inversion F; subst; constructor; auto; now apply IH.
Qed.

(** No two definitions have the same name, so no definition fails for that reason, and
    the symbolic constants (which are returned in [all], and which the synthesis
    quantifies over) are different ones for different positions and variables.  Each
    variable has a definition.
    *Partial*: variables whose names have no minus sign, and bounds of two and more. *)
Theorem C15_names_partial : forall n vars ds all, 2 <= n -> good_names vars -> generate_vars n vars = Ok (ds, all) ->
  NoDup (map dname ds) /\ all = syms ds /\ NoDup all /\ incl (map fst vars) (map dname ds).
Proof.
  intros n vars ds all N2 GN G. destruct (vars_ok _ _ _ G) as (qs & F & E). injection E as -> ->.
  assert (F2 : Forall2 (fun k q => NoDup (names (fst q)) /\ forall y, In y (names (fst q)) -> path (snd k) y) (map flip vars) qs).
  { clear - F N2. induction F; constructor; auto. destruct (gen_names n N2 _ _ _ H) as (? & ? & _). auto. }
  destruct (forest_names n (map flip vars) qs F F2) as [ND _]; [rewrite flip_names; now apply apart_vars|].
  assert (SY : concat (map snd qs) = syms (concat (map fst qs))).
  { clear - F N2. induction F; cbn; auto. destruct (gen_names n N2 _ _ _ H) as (_ & _ & _ & E). rewrite syms_app. congruence. }
  split; [exact ND|]. split; [exact SY|]. split.
  - rewrite SY. clear - ND. unfold names in ND. induction (concat (map fst qs)) as [|d ds IH]; cbn in *; [constructor|]. inversion ND; subst.
    destruct d; cbn; auto. constructor; auto. intros IN. apply H1. clear - IN. unfold syms in IN. apply in_flat_map in IN as (d & D & IN).
    apply in_map_iff. exists d. split; auto. destruct d; [|destruct IN]. now destruct IN as [<-|[]].
  - intros y Y. rewrite <- flip_names in Y. clear - F N2 Y. induction F; cbn in *; [destruct Y|]. rewrite map_app. apply in_or_app. destruct Y as [<-|Y]; auto.
    left. now destruct (gen_names n N2 _ _ _ H) as (_ & _ & ? & _).
Qed.
Print Assumptions C15_names_partial.

(** The values that the variables can take together are those of [shape]: for each
    variable one of its values, in any combination.
    *Partial*: as above, and sets of integers only. *)
Theorem C15_values_partial : forall n vars vals, 2 <= n -> good_names vars -> Forall (fun v => can_gen (snd v) = true) vars ->
  obtainable n vars vals <-> Forall2 (fun v a => shape n (snd v) a) vars vals.
Proof.
  intros n vars vals N2 GN CG. assert (CG' : Forall (fun k => can_gen (fst k) = true) (map flip vars)).
  { apply Forall_forall. intros k K. apply in_map_iff in K as (v & <- & V). rewrite Forall_forall in CG. now apply CG. }
  assert (ALL : forall P : ty -> Prop, (forall t, P t) -> Forall (fun k : ty * string => P (fst k)) (map flip vars)).
  { intros P p. apply Forall_forall. auto. }
  split.
  - intros (ds & all & s & r & G & R & M). destruct (vars_ok _ _ _ G) as (qs & F & E). injection E as -> ->.
    destruct (forest_sound n (map flip vars) qs s F) with (2 := CG') (3 := R) as (vals' & M' & F2); [now apply ALL; apply gen_sound|].
    rewrite flip_names in M'. assert (vals' = vals) as -> by congruence. now apply flip_shape.
  - intros SH. assert (T : exists q, generate_vars n vars = Ok q).
    { apply gens_some. apply Forall_forall. intros m M. apply in_map_iff in M as (v & <- & V). apply gen_total; auto. rewrite Forall_forall in CG. now apply CG. }
    destruct T as [q G]. destruct (vars_ok _ _ _ G) as (qs & F & ->).
    destruct (forest_covers n N2 (map flip vars) qs F) with (vals := vals) as [s C]; auto.
    + apply ALL. now apply gen_covers.
    + rewrite flip_names. now apply apart_vars.
    + now apply flip_shape.
    + destruct (C (fun _ => None)) as (r & R & M); [intros y _; reflexivity|]. rewrite flip_names in M. exists (concat (map fst qs)), (concat (map snd qs)), s, r. auto.
Qed.
Print Assumptions C15_values_partial.

(** In particular: a list variable takes exactly the lists of up to [n] integers ... *)
Theorem C15_lists : forall n x v, 2 <= n -> lacks "-"%char x ->
  obtainable n [(x, TList TInt)] [v] <-> exists l : list Z, v = VList (map VInt l) /\ List.length l <= n.
Proof.
  intros n x v N2 L. rewrite C15_values_partial by (auto; split; repeat constructor; auto). split.
  - intros F. inversion F as [|? ? ? ? S]; subst. cbn in S. destruct S as (l & -> & LN & FI).
    assert (E : exists zs, l = map VInt zs). { clear - FI. induction FI as [|a l [z ->] F [zs ->]]; [now exists []|]. now exists (z :: zs). }
    destruct E as [zs ->]. exists zs. now rewrite map_length in LN.
  - intros (l & -> & LN). constructor; [|constructor]. cbn. exists (map VInt l). rewrite map_length. split; [reflexivity|]. split; auto.
    apply Forall_forall. intros a A. apply in_map_iff in A as (z & <- & _). eauto.
Qed.
Print Assumptions C15_lists.
(** ... and a matrix variable the matrices of up to [n] rows, all of exactly [n]
    integers. *)
Theorem C15_matrices_partial : forall n x v, 2 <= n -> lacks "-"%char x ->
  obtainable n [(x, TMatrix TInt)] [v] <->
  exists m : list (list Z), v = VList (map (fun r => VList (map VInt r)) m) /\ List.length m <= n /\ Forall (fun r => List.length r = n) m.
Proof.
  intros n x v N2 L. rewrite C15_values_partial by (auto; split; repeat constructor; auto). split.
  - intros F. inversion F as [|? ? ? ? S]; subst. cbn in S. destruct S as (m & -> & LN & FI).
    assert (E : exists zs, m = map (map VInt) zs /\ Forall (fun r => List.length r = n) zs).
    { clear - FI. induction FI as [|r m [LR FR] F (zs & -> & FZ)]; [exists []; split; [reflexivity|constructor]|].
      assert (E : exists z, r = map VInt z). { clear - FR. induction FR as [|a l [z ->] F [zs ->]]; [now exists []|]. now exists (z :: zs). }
      destruct E as [z ->]. exists (z :: zs). split; [reflexivity|]. rewrite map_length in LR. constructor; auto. }
    destruct E as (zs & -> & FZ). exists zs. rewrite map_map. rewrite map_length in LN. auto.
  - intros (m & -> & LN & FR). constructor; [|constructor]. cbn. exists (map (map VInt) m). rewrite map_length, map_map. split; [reflexivity|]. split; auto.
    apply Forall_forall. intros r R. apply in_map_iff in R as (z & <- & Z). rewrite map_length. rewrite Forall_forall in FR. split; [now apply FR|].
    apply Forall_forall. intros a A. apply in_map_iff in A as (y & <- & _). eauto.
Qed.
Print Assumptions C15_matrices_partial.

(** A list, a matrix, a set and a tuple together. *)
Example C15_example :
  obtainable 2 [("a", TList TInt); ("m", TMatrix TInt); ("s", TSet TInt); ("p", TTuple [TInt; TBool])]%string
    [VList [VInt 7]; VList [VList [VInt 1; VInt 2]]; VList [VInt (-3); VInt 5]; VList [VInt 4; VBool false]].
Proof.
  apply C15_values_partial; [lia| |repeat constructor|].
  - split; cbn; repeat (apply NoDup_cons; [cbn; intuition discriminate|]); [apply NoDup_nil|]. repeat constructor; discriminate.
  - constructor; [exists [VInt 7]; split; [reflexivity|]; split; [cbn; lia|repeat constructor; cbn; eauto]|].
    constructor; [exists [[VInt 1; VInt 2]]; split; [reflexivity|]; split; [cbn; lia|repeat constructor; cbn; eauto]|].
    constructor; [exists [-3; 5]%Z; split; [reflexivity|]; split; [cbn; lia|repeat constructor]|].
    constructor; [exists [VInt 4; VBool false]; split; [reflexivity|]; cbn; eauto|]. constructor.
Qed.
Example C15_example_names : exists ds all,
  generate_vars 2 [("a", TList TInt); ("m", TMatrix TInt)]%string = Ok (ds, all) /\
  all = ["a_BOUNDEDSET-len"; "a_BOUNDEDSET-0"; "a_BOUNDEDSET-1"; "m_BOUNDEDSET-len";
         "m_BOUNDEDSET-0"; "m_BOUNDEDSET-1"; "m_BOUNDEDSET-2"; "m_BOUNDEDSET-3"]%string.
Proof. eexists. eexists. split; [vm_compute; reflexivity|reflexivity]. Qed.

(** "A matrix covers all matrices with at most [n] rows and columns" is false: no
    matrix with fewer columns is tried. *)
Theorem C15_refuted_columns : forall n x v c, 2 <= n -> lacks "-"%char x -> c < n ->
  v = VList [VList (repeat (VInt 1) c)] -> ~ obtainable n [(x, TMatrix TInt)] [v].
Proof.
  intros n x v c N2 L C -> O. apply C15_matrices_partial in O as (m & E & _ & F); auto.
  destruct m as [|r [|? ?]]; try discriminate E. injection E as E. inversion F; subst. apply (f_equal (@List.length _)) in E.
  rewrite repeat_length, map_length in E. lia.
Qed.
Print Assumptions C15_refuted_columns.
(** With the bound 1 the only matrix is the empty one ([range(0, len(tmp) - 1, 1)] is
    empty), and the bound 0 is refused for matrices. *)
Theorem C15_refuted_small_bounds : forall x,
  (forall v, obtainable 1 [(x, TMatrix TInt)] [v] -> v = VList []) /\
  generate_vars 0 [(x, TMatrix TInt)] = Err ExValue.
Proof.
  intros x. split; [|reflexivity]. intros v (ds & all & s & r & G & R & M). cbn in G. injection G as <- <-. cbn in R.
  repeat match type of R with context [match upd ?a ?b ?c ?d with _ => _ end] => destruct (upd a b c d) as [[]|]; try discriminate R end.
  destruct ((0 <=? z) && (z <=? 0))%Z; [|discriminate].
  injection R as <-. cbn in M. unfold upd at 1 in M. rewrite String.eqb_refl in M. injection M as <-. now rewrite firstn_nil.
Qed.
Print Assumptions C15_refuted_small_bounds.
(** A variable may have the name of a part of another one; both are defined, which
    Racket refuses: the problem has no inputs at all. *)
Theorem C15_refuted_collision : exists vars, NoDup (map fst vars) /\ (exists ds all, generate_vars 2 vars = Ok (ds, all) /\ ~ NoDup (map dname ds)) /\
  forall vals, ~ obtainable 2 vars vals.
Proof.
  exists [("x", TList TInt); ("x_BOUNDEDSET-0", TInt)]%string. split; [|split].
  - cbn. repeat (apply NoDup_cons; [cbn; intuition discriminate|]). apply NoDup_nil.
  - eexists. eexists. split; [vm_compute; reflexivity|]. cbn. intros ND. inversion ND as [|? ? _ ND2]. inversion ND2 as [|? ? NI _]. apply NI. cbn. auto.
  - intros vals (ds & all & s & r & G & R & M). vm_compute in G. injection G as <- <-. cbn in R. destruct ((0 <=? _) && _)%Z; discriminate R.
Qed.
Print Assumptions C15_refuted_collision.
