(** C35: target-language definitions are emitted in dependency order. *)

From Coq Require Import String List ZArith Bool Lia Permutation Relations.
From Verif Require Import Ast Dict TopoModel TopoProofs.
From Verif Require Import Properties_IR.
Import ListNotations.
Local Open Scope string_scope.
Local Open Scope list_scope.

(** An expression uses the function [f]: it calls it, or passes it as a value. *)
Inductive uses : expr -> string -> Prop :=
| uses_call : forall k t f args, k = KCall \/ k = KTargetCall -> uses (Node k t (Atom (PStr f) :: args)) f
| uses_value : forall ts f, uses (Node KVar (TFn ts) [Atom (PStr f)]) f
| uses_sub : forall k t args a f, In a args -> uses a f -> uses (Node k t args) f.

(** In the list [ds], the definition of [f] uses another defined function [g]. *)
Definition depends (ds : list expr) (g f : string) : Prop :=
  defined ds g /\ g <> f /\
  exists d b, In d ds /\ is_fn_decl d = true /\ is_named d f /\ has_body d b /\ uses b g.

Definition distinct_names (ds : list expr) : Prop := NoDup (map decl_name (filter is_fn_decl ds)).

Lemma uses_mentions : forall e f, uses e f -> mentions e f.
Proof.
  induction 1.
  - apply mentions_node. exists (Atom (PStr f)). split; [left|]; reflexivity.
  - apply mentions_node. exists (Atom (PStr f)). split; [left|]; reflexivity.
  - apply mentions_node. eauto.
Qed.

Lemma distinct_nm : forall ds, Forall proper ds -> distinct_names ds -> NoDup (map nm (filter is_fn_decl ds)).
Proof.
  unfold distinct_names. intros ds P. rewrite Forall_forall in P.
  assert (Q : forall d, In d (filter is_fn_decl ds) -> exists f, decl_name d = Ok f).
  { intros d D. apply filter_In in D. destruct D as [D F]. destruct (P d D F) as (f & b & N & _). eauto. }
  induction (filter is_fn_decl ds) as [|d l IH]; cbn; intros N; [constructor|]. inversion N; subst. constructor.
  - intros IN. apply H1. apply in_map_iff in IN. destruct IN as (e & E & IN). apply in_map_iff. exists e. split; auto.
    destruct (Q d (or_introl eq_refl)) as (f & F). destruct (Q e (or_intror IN)) as (g & G).
    unfold nm in E. rewrite F, G in *. congruence.
  - apply IH; auto. intros; apply Q; now right.
Qed.

Lemma partition_perm : forall A (p : A -> bool) l, Permutation (filter p l ++ filter (fun x => negb (p x)) l) l.
Proof.
  induction l as [|a l IH]; [constructor|]. cbn [filter]. destruct (p a); cbn [negb app].
  - now constructor.
  - rewrite <- Permutation_middle. now constructor.
Qed.

(** For every list of definitions with different names, any order in which the
    library returns a topological order and in which sets are iterated: the result is
    a permutation, lemmas come after functions, and a function comes before every
    other function that uses it. *)
Theorem C35_order : forall nx so ds out, nx_spec nx -> set_spec so -> Forall proper ds -> distinct_names ds ->
  topological_sort nx so ds = Ok out ->
  Permutation out ds /\
  (exists fns axioms, out = fns ++ axioms /\ Forall (fun d => is_fn_decl d = true) fns /\
                      Forall (fun d => is_fn_decl d = false) axioms) /\
  (forall d e g f b, In d ds -> In e ds -> is_fn_decl d = true -> is_fn_decl e = true ->
     is_named d g -> is_named e f -> g <> f -> has_body e b -> uses b g -> before d e out).
Proof.
  intros nx so ds out NX SO P D H.
  destruct (sort_ok nx so NX SO ds P (distinct_nm ds P D) out H) as (sorted & -> & PERM & ORD).
  split; [|split].
  - rewrite PERM. apply partition_perm.
  - exists sorted, (filter (fun d => negb (is_fn_decl d)) ds). split; [reflexivity|]. split; apply Forall_forall; intros x X.
    + apply (Permutation_in _ PERM) in X. apply filter_In in X. tauto.
    + apply filter_In in X. destruct X as [_ X]. now apply negb_true_iff in X.
  - intros d e g f b ID IE FD FE ND NE DIF B U. apply before_app_l. apply ORD; try (apply filter_In; auto).
    unfold nm. rewrite ND, NE. split; [exists d; auto|]. split; [auto|]. exists e, b. repeat split; auto. now apply uses_mentions.
Qed.
Print Assumptions C35_order.

(** Full statement (false): with two definitions of the same name one of them is
    dropped. *)
Definition fdecl (f : string) (body : expr) : expr := Node KFnDeclRec (TFn [TInt; TInt]) [Atom (PStr f); body; x_].
Definition a_calls (f : string) : expr := Node KCall TInt [Atom (PStr f); x_].

Theorem C35_duplicates_refuted : exists ds out, Forall proper ds /\
  topological_sort nx_topological_sort (fun l => l) ds = Ok out /\ ~ Permutation out ds.
Proof.
  exists [fdecl "f" x_; fdecl "f" (IntLit 1)], [fdecl "f" (IntLit 1)].
  split; [repeat constructor; intros _; do 2 eexists; split; reflexivity|]. split; [reflexivity|].
  intros P. apply Permutation_length in P. discriminate.
Qed.
Print Assumptions C35_duplicates_refuted.

(** Full statement (false): it raises exactly when the dependencies are cyclic.
    Names of variables count too: two functions with no dependency at all, whose
    parameters are named like the other function, cannot be ordered. *)
Theorem C35_raises_refuted : exists ds, Forall proper ds /\ distinct_names ds /\
  (forall nx so, nx_spec nx -> set_spec so -> exists x, topological_sort nx so ds = Err x) /\
  (forall g f, ~ depends ds g f).
Proof.
  exists [Node KFnDeclRec (TFn [TInt; TInt]) [Atom (PStr "f"); mkVar "g" TInt; mkVar "g" TInt];
          Node KFnDeclRec (TFn [TInt; TInt]) [Atom (PStr "g"); mkVar "f" TInt; mkVar "f" TInt]].
  set (ds := [_; _]).
  assert (P : Forall proper ds) by (repeat constructor; intros _; do 2 eexists; split; reflexivity).
  split; [exact P|]. split; [|split].
  - unfold distinct_names. cbn. constructor; [intros [E|[]]; discriminate|]. constructor; [intros []|constructor].
  - intros nx so NX SO. apply (sort_raises nx so NX SO ds P).
    assert (L : linked ds "f" "g" /\ linked ds "g" "f").
    { split; (split; [|split; [discriminate|]]).
      - eexists. split; [left; reflexivity|]. split; reflexivity.
      - do 2 eexists. split; [right; left; reflexivity|]. repeat split. left. reflexivity.
      - eexists. split; [right; left; reflexivity|]. split; reflexivity.
      - do 2 eexists. split; [left; reflexivity|]. repeat split. left. reflexivity. }
    exists "f". destruct L. apply t_trans with "g"; apply t_step; auto.
  - intros g f (_ & _ & d & b & IN & _ & _ & B & U).
    destruct IN as [<-|[<-|[]]]; injection B as <-; inversion U; subst;
      try (match goal with H : _ \/ _ |- _ => destruct H; discriminate end);
      try (match goal with H : In _ _ |- _ => destruct H as [<-|[]] end; match goal with H : uses (Atom _) _ |- _ => inversion H end).
Qed.
Print Assumptions C35_raises_refuted.

(** What holds: if a function's name occurs in a body only where the function is
    used, an exception is raised exactly when the dependencies are cyclic. *)
Theorem C35_raises_partial : forall nx so ds, nx_spec nx -> set_spec so -> Forall proper ds ->
  (forall d b g, In d ds -> is_fn_decl d = true -> has_body d b -> defined ds g -> mentions b g -> uses b g) ->
  (exists x, topological_sort nx so ds = Err x) <-> cyclic (depends ds).
Proof.
  intros nx so ds NX SO P U. rewrite (sort_raises nx so NX SO ds P).
  assert (E : forall g f, linked ds g f <-> depends ds g f).
  { intros g f. unfold linked, depends. split; intros (D & N & d & b & IN & F & NA & B & M); (split; [auto|]; split; [auto|]); exists d, b; repeat split; auto.
    - eapply U; eauto.
    - now apply uses_mentions. }
  split; apply cyclic_ext; intros; [|symmetry]; apply E.
Qed.
Print Assumptions C35_raises_partial.

(** The hypotheses on the library are met. *)
Theorem C35_library_spec_met : nx_spec nx_topological_sort /\ set_spec (fun l => l).
Proof. split; [exact nx_topological_sort_spec|]. intros l. apply Permutation_refl. Qed.
Print Assumptions C35_library_spec_met.

Definition fact_ax : expr := Node KAxiom TBool [BoolLit true; x_].
Example C35_case :
  let ds := [fact_ax; fdecl "h" (Add2 (a_calls "g") (a_calls "h")); fdecl "k" x_; fdecl "g" (a_calls "f"); fdecl "f" (IntLit 1)] in
  Forall proper ds /\ distinct_names ds /\
  topological_sort nx_topological_sort (fun l => l) ds =
    Ok [fdecl "f" (IntLit 1); fdecl "g" (a_calls "f"); fdecl "h" (Add2 (a_calls "g") (a_calls "h")); fdecl "k" x_; fact_ax].
Proof.
  split; [|split].
  - repeat constructor; intros F; try discriminate; do 2 eexists; split; reflexivity.
  - unfold distinct_names. cbn. repeat (constructor; [cbn; intuition discriminate|]). constructor.
  - reflexivity.
Qed.

Example C35_cyclic_case :
  let ds := [fdecl "g" (a_calls "f"); fdecl "f" (a_calls "g")] in
  topological_sort nx_topological_sort (fun l => l) ds = Err ExValue /\
  cyclic (depends ds).
Proof.
  cbv zeta. set (ds := [fdecl "g" (a_calls "f"); fdecl "f" (a_calls "g")]).
  split; [reflexivity|]. exists "f". apply t_trans with "g"; apply t_step; (split; [|split; [discriminate|]]).
  - exists (fdecl "f" (a_calls "g")). split; [right; left; reflexivity|]. split; reflexivity.
  - exists (fdecl "g" (a_calls "f")), (a_calls "f"). split; [left; reflexivity|]. repeat split. constructor. auto.
  - exists (fdecl "g" (a_calls "f")). split; [left; reflexivity|]. split; reflexivity.
  - exists (fdecl "f" (a_calls "g")), (a_calls "g"). split; [right; left; reflexivity|]. repeat split. constructor. auto.
Qed.
