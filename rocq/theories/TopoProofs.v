(** Proofs about topological_sort (TopoModel.v), and an implementation of the
    library function it relies on. *)

From Coq Require Import String List ZArith Bool Lia Permutation Relations.
From Verif Require Import Ast Dict TopoModel.
Import ListNotations.
Local Open Scope string_scope.
Local Open Scope list_scope.

(** [x] comes before [y] *)
Definition before {A} (x y : A) (l : list A) : Prop := exists l1 l2 l3, l = l1 ++ x :: l2 ++ y :: l3.

(** there is a way from something back to itself *)
Definition cyclic {A} (R : A -> A -> Prop) : Prop := exists x, clos_trans A R x x.

Definition edge (es : list (string * string)) (x y : string) : Prop := In (x, y) es.
Definition node (es : list (string * string)) (x : string) : Prop := exists y, edge es x y \/ edge es y x.

(** What networkx documents for [topological_sort] of the graph with these edges:
    each node once, every edge from left to right; an exception if and only if
    there is a cycle. *)
Definition nx_spec (nx : list (string * string) -> option (list string)) : Prop :=
  forall es, match nx es with
             | Some l => NoDup l /\ (forall x, In x l <-> node es x) /\ (forall x y, edge es x y -> before x y l)
             | None => cyclic (edge es)
             end.

(** Iterating over a set gives each member once. *)
Definition set_spec (so : list string -> list string) : Prop := forall l, Permutation (so l) l.

(* ------------------------------------------------------------------ *)
(** ** the list order *)

Lemma before_split_nodup : forall A (x y : A) l, NoDup l -> before x y l -> before y x l -> False.
Proof.
  intros A x y l. induction l as [|a l IH]; intros N (l1 & l2 & l3 & E) (m1 & m2 & m3 & F).
  - destruct l1; discriminate.
  - inversion N; subst. destruct l1 as [|b l1]; cbn in E.
    + injection E as -> E. destruct m1 as [|c m1]; cbn in F.
      * injection F as -> F. apply H1. rewrite F. apply in_or_app. right. left. reflexivity.
      * injection F as <- F. apply H1. rewrite F. apply in_or_app. right. right. apply in_or_app. right. left. reflexivity.
    + injection E as <- E. destruct m1 as [|c m1]; cbn in F.
      * injection F as -> F. apply H1. rewrite E. apply in_or_app. right. right. apply in_or_app. right. left. reflexivity.
      * injection F as <- F. apply IH; auto; [exists l1, l2, l3 | exists m1, m2, m3]; auto.
Qed.

Lemma before_cons : forall A (x y a : A) l, before x y (a :: l) <-> (x = a /\ In y l) \/ before x y l.
Proof.
  intros. split.
  - intros (l1 & l2 & l3 & E). destruct l1 as [|b l1]; cbn in E; injection E as <- E.
    + left. split; auto. rewrite E. apply in_or_app. right. left. reflexivity.
    + right. exists l1, l2, l3. auto.
  - intros [(-> & IN)|(l1 & l2 & l3 & ->)].
    + apply in_split in IN. destruct IN as (p & q & ->). exists [], p, q. reflexivity.
    + exists (a :: l1), l2, l3. reflexivity.
Qed.

Lemma before_in : forall A (x y : A) l, before x y l -> In x l /\ In y l.
Proof.
  intros A x y l (l1 & l2 & l3 & ->). split; apply in_or_app; right.
  - left. reflexivity.
  - right. apply in_or_app. right. left. reflexivity.
Qed.

Lemma before_trans : forall A (x y z : A) l, NoDup l -> before x y l -> before y z l -> before x z l.
Proof.
  intros A x y z l. induction l as [|a l IH]; intros N B C.
  - destruct B as (l1 & l2 & l3 & E). destruct l1; discriminate.
  - inversion N; subst. apply before_cons in B. apply before_cons in C. apply before_cons.
    destruct B as [(-> & B)|B].
    + left. split; auto. destruct C as [(-> & C)|C]; [contradiction|]. now apply before_in in C.
    + right. destruct C as [(-> & C)|C]; [apply before_in in B; tauto|]. auto.
Qed.

Lemma before_app_r : forall A (x y : A) l m, before x y m -> before x y (l ++ m).
Proof. intros A x y l m (l1 & l2 & l3 & ->). exists (l ++ l1), l2, l3. now rewrite app_assoc. Qed.

Lemma before_app_l : forall A (x y : A) l m, before x y l -> before x y (l ++ m).
Proof.
  intros A x y l m (l1 & l2 & l3 & ->). exists l1, l2, (l3 ++ m).
  rewrite <- app_assoc. cbn. now rewrite <- app_assoc.
Qed.

Lemma before_app_lr : forall A (x y : A) l m, In x l -> In y m -> before x y (l ++ m).
Proof.
  intros A x y l m X Y. apply in_split in X. apply in_split in Y. destruct X as (a & b & ->). destruct Y as (c & d & ->).
  exists a, (b ++ c), d. rewrite <- !app_assoc. reflexivity.
Qed.

Lemma ordered_acyclic : forall (R : string -> string -> Prop) l, NoDup l ->
  (forall x y, R x y -> before x y l) -> ~ cyclic R.
Proof.
  intros R l N O (x & C).
  assert (P : forall a b, clos_trans _ R a b -> before a b l).
  { induction 1; eauto using before_trans. }
  pose proof (P x x C) as B. exact (before_split_nodup _ x x l N B B).
Qed.

(* ------------------------------------------------------------------ *)
(** ** an implementation of the library function *)

Definition ready (es : list (string * string)) (left : list string) (n : string) : bool :=
  negb (existsb (fun e => String.eqb (snd e) n && smem (fst e) left) es).

Fixpoint kahn (fuel : nat) (es : list (string * string)) (left : list string) : option (list string) :=
  match left with
  | [] => Some []
  | _ => match fuel with
         | O => None
         | S f => match filter (ready es left) left with
                  | [] => None
                  | now => match kahn f es (filter (fun n => negb (ready es left n)) left) with
                           | Some r => Some (now ++ r)
                           | None => None
                           end
                  end
         end
  end.

Definition nodes (es : list (string * string)) : list string :=
  nodup string_dec (flat_map (fun e => [fst e; snd e]) es).
Definition nx_topological_sort (es : list (string * string)) : option (list string) :=
  kahn (List.length (nodes es)) es (nodes es).

Lemma smem_in : forall x l, smem x l = true <-> In x l.
Proof.
  intros. unfold smem. rewrite existsb_exists. split.
  - intros (y & IN & E). apply String.eqb_eq in E. now subst.
  - intros IN. exists x. split; auto. apply String.eqb_refl.
Qed.

Lemma ready_spec : forall es left n, ready es left n = true <-> forall m, edge es m n -> ~ In m left.
Proof.
  intros. unfold ready. rewrite negb_true_iff, <- not_true_iff_false, existsb_exists. split.
  - intros H m E IN. apply H. exists (m, n). split; auto. cbn. rewrite String.eqb_refl. apply smem_in in IN. now rewrite IN.
  - intros H ((a & b) & IN & E). apply andb_prop in E. destruct E as [E1 E2]. cbn in *. apply String.eqb_eq in E1. subst b.
    apply smem_in in E2. exact (H a IN E2).
Qed.

Lemma not_ready_spec : forall es left n, ready es left n = false -> exists m, edge es m n /\ In m left.
Proof.
  intros es left n H. unfold ready in H. apply negb_false_iff in H. apply existsb_exists in H.
  destruct H as ((a & b) & IN & E). apply andb_prop in E. destruct E as [E1 E2]. cbn in *. apply String.eqb_eq in E1. subst b.
  apply smem_in in E2. exists a. auto.
Qed.

(** everything has a predecessor: there is a cycle *)
Lemma all_preds_cycle : forall (R : string -> string -> Prop) S, S <> [] ->
  (forall x, In x S -> exists y, In y S /\ R y x) -> cyclic R.
Proof.
  intros R S NE P.
  assert (W : forall n, exists x l, List.length l = n /\ In x S /\ (forall y, In y l -> In y S) /\
     (forall y, In y l -> clos_trans _ R x y) /\
     (NoDup (x :: l) \/ cyclic R)).
  { induction n as [|n (x & l & L & X & LS & PTH & D)].
    - destruct S as [|x S]; [congruence|]. exists x, []. repeat split; auto; try (intros ? []); try (left; reflexivity).
      left. constructor; auto. constructor.
    - destruct (P x X) as (y & Y & E). exists y, (x :: l). repeat split; auto.
      + cbn. congruence.
      + intros z [<-|Z]; auto.
      + intros z [<-|Z]; [apply t_step; exact E|]. apply t_trans with x; [apply t_step; exact E|]. auto.
      + destruct D as [D|D]; [|auto]. destruct (in_dec string_dec y (x :: l)) as [IN|NI].
        * right. destruct IN as [->|IN]; [exists y; now apply t_step|]. exists y. apply t_trans with x; [apply t_step; exact E|]. auto.
        * left. constructor; auto. }
  destruct (W (List.length S)) as (x & l & L & X & LS & _ & [D|C]); [|exact C].
  exfalso. assert (LE : (List.length (x :: l) <= List.length S)%nat).
  { apply NoDup_incl_length; auto. intros z [<-|Z]; auto. }
  cbn in LE. lia.
Qed.

Lemma filter_split_in : forall A (p : A -> bool) l x, In x l <-> In x (filter p l) \/ In x (filter (fun y => negb (p y)) l).
Proof.
  intros. rewrite !filter_In. destruct (p x) eqn:E.
  - cbn. split; [auto|]. intros [[H _]|[_ H]]; [auto|discriminate].
  - cbn. split; [auto|]. intros [[_ H]|[H _]]; [discriminate|auto].
Qed.

Lemma filter_length_split : forall A (p : A -> bool) l,
  (List.length (filter p l) + List.length (filter (fun y => negb (p y)) l) = List.length l)%nat.
Proof. induction l as [|a l IH]; [reflexivity|]. cbn [filter]. destruct (p a); cbn [negb List.length]; lia. Qed.

Lemma NoDup_app_intro : forall A (l m : list A), NoDup l -> NoDup m -> (forall x, In x l -> ~ In x m) -> NoDup (l ++ m).
Proof.
  induction l as [|a l IH]; intros m L M D; [auto|]. inversion L; subst. cbn. constructor.
  - intros IN. apply in_app_or in IN. destruct IN as [IN|IN]; [auto|]. apply (D a); [left; auto|auto].
  - apply IH; auto. intros x X. apply D. now right.
Qed.

Lemma kahn_spec : forall fuel es left, (List.length left <= fuel)%nat -> NoDup left ->
  match kahn fuel es left with
  | Some l => NoDup l /\ (forall x, In x l <-> In x left) /\
              (forall x y, edge es x y -> In x left -> In y left -> before x y l)
  | None => cyclic (edge es)
  end.
Proof.
  induction fuel as [|fuel IH]; intros es left L N.
  - destruct left as [|a left]; [|cbn in L; lia]. cbn. split; [constructor|]. split; [tauto|]. intros x y _ [].
  - cbn [kahn]. destruct left as [|a left]; [split; [constructor|]; split; [tauto|]; intros x y _ []|].
    set (all := a :: left) in *.
    destruct (filter (ready es all) all) as [|n now] eqn:F.
    + apply all_preds_cycle with (S := all); [discriminate|]. intros x X.
      destruct (ready es all x) eqn:R.
      * assert (In x (filter (ready es all) all)) by (apply filter_In; auto). rewrite F in H. contradiction.
      * destruct (not_ready_spec _ _ _ R) as (m & E & M). exists m. auto.
    + set (rest := filter (fun n => negb (ready es all n)) all) in *.
      assert (LEN : (List.length rest <= fuel)%nat).
      { pose proof (filter_length_split _ (ready es all) all). fold rest in H. rewrite F in H. cbn [List.length] in *. lia. }
      specialize (IH es rest LEN (NoDup_filter _ N)).
      destruct (kahn fuel es rest) as [r|]; [|exact IH]. destruct IH as (Nr & Ir & Or).
      rewrite <- F.
      assert (DIS : forall x, In x (filter (ready es all) all) -> ~ In x r).
      { intros x X Y. apply Ir in Y. apply filter_In in X. apply filter_In in Y. destruct X as [_ X]. destruct Y as [_ Y]. rewrite X in Y. discriminate. }
      split; [apply NoDup_app_intro; auto using NoDup_filter|]. split.
      * intros x. rewrite in_app_iff, Ir. symmetry. apply filter_split_in.
      * intros x y E X Y.
        assert (NR : ~ In y (filter (ready es all) all)).
        { intros H. apply filter_In in H. destruct H as [_ H]. apply (proj1 (ready_spec es all y) H x E X). }
        apply (filter_split_in _ (ready es all)) in X. apply (filter_split_in _ (ready es all)) in Y.
        destruct Y as [Y|Y]; [contradiction|]. destruct X as [X|X].
        -- apply before_app_lr; auto. now apply Ir.
        -- apply before_app_r. now apply Or.
Qed.

Lemma nodes_spec : forall es x, In x (nodes es) <-> node es x.
Proof.
  intros. unfold nodes, node, edge. rewrite nodup_In, in_flat_map. split.
  - intros ((a & b) & IN & [<-|[<-|[]]]); cbn; eauto.
  - intros (y & [IN|IN]); eexists; (split; [exact IN|]); cbn; auto.
Qed.

Lemma nx_topological_sort_spec : nx_spec nx_topological_sort.
Proof.
  intros es. unfold nx_topological_sort.
  pose proof (kahn_spec (List.length (nodes es)) es (nodes es) (le_n _) (NoDup_nodup _ _)) as H.
  destruct (kahn _ _ _) as [l|]; [|exact H]. destruct H as (N & I & O). split; [auto|]. split.
  - intros x. rewrite I. apply nodes_spec.
  - intros x y E. apply O; auto; apply nodes_spec; [exists y | exists x]; auto.
Qed.

(* ------------------------------------------------------------------ *)
(** ** the dependencies *)

(** the string occurs somewhere in the expression *)
Fixpoint mentions (e : expr) (g : string) : Prop :=
  match e with
  | Atom (PStr s) => s = g
  | Atom _ => False
  | Node _ _ args => (fix any l := match l with [] => False | a :: r => mentions a g \/ any r end) args
  end.

Lemma mentions_node : forall k t args g, mentions (Node k t args) g <-> exists a, In a args /\ mentions a g.
Proof.
  intros k t args g. cbn [mentions]. induction args as [|a args IH].
  - split; [tauto|]. intros (a & [] & _).
  - rewrite IH. split.
    + intros [H|(b & IN & H)]; eauto using in_eq, in_cons.
    + intros (b & [<-|IN] & H); eauto.
Qed.

Lemma dependent_spec : forall names e g, In g (dependent_fn_names names e) <-> In g names /\ mentions e g.
Proof.
  intros names. induction e as [a|k t args IH] using expr_ind'; intros g.
  - destruct a as [s|z|b|]; cbn; try tauto. destruct (smem s names) eqn:S; cbn.
    + apply smem_in in S. split; [intros [<-|[]]; auto|]. intros [_ ->]. auto.
    + split; [tauto|]. intros [IN ->]. apply smem_in in IN. congruence.
  - rewrite mentions_node. cbn [dependent_fn_names]. rewrite in_flat_map. rewrite Forall_forall in IH. split.
    + intros (a & IN & H). apply IH in H; auto. destruct H. eauto.
    + intros (N & a & IN & H). exists a. split; auto. apply IH; auto.
Qed.

(** A definition has a name and a body. *)
Definition is_named (d : expr) (f : string) : Prop := decl_name d = Ok f.
Definition has_body (d : expr) (b : expr) : Prop := decl_body d = Ok b.
Definition proper (d : expr) : Prop := is_fn_decl d = true -> exists f b, is_named d f /\ has_body d b.

(** names of functions that are defined in the list *)
Definition defined (ds : list expr) (f : string) : Prop := exists d, In d ds /\ is_fn_decl d = true /\ is_named d f.

(** [g] is mentioned in the body of [f], both defined and different *)
Definition linked (ds : list expr) (g f : string) : Prop :=
  defined ds g /\ g <> f /\ exists d b, In d ds /\ is_fn_decl d = true /\ is_named d f /\ has_body d b /\ mentions b g.

Lemma mapR_map : forall A B (f : A -> res B) (g : A -> B) l, (forall x, In x l -> f x = Ok (g x)) -> mapR f l = Ok (map g l).
Proof.
  induction l as [|a l IH]; intros H; [reflexivity|]. cbn. rewrite (H a (or_introl eq_refl)). cbn [bindR].
  rewrite IH; [reflexivity|]. intros; apply H; now right.
Qed.

Lemma mapR_Forall2 : forall A B (f : A -> res B) l l', mapR f l = Ok l' -> Forall2 (fun a b => f a = Ok b) l l'.
Proof.
  induction l as [|a l IH]; intros l' H; cbn in H.
  - injection H as <-. constructor.
  - destruct (f a) eqn:E; [|discriminate]. cbn [bindR] in H. destruct (mapR f l); [|discriminate]. cbn [bindR] in H.
    injection H as <-. constructor; auto.
Qed.

Lemma dget_dset : forall V (d : dict V) k v j, dget (dset d k v) j = if String.eqb j k then Some v else dget d j.
Proof.
  induction d as [|(k' & v') d IH]; intros k v j; cbn [dset dget].
  - reflexivity.
  - destruct (String.eqb k k') eqn:E; cbn [dget].
    + apply String.eqb_eq in E. subst. destruct (String.eqb j k'); reflexivity.
    + rewrite IH. destruct (String.eqb j k') eqn:E2; [|reflexivity].
      apply String.eqb_eq in E2. subst. destruct (String.eqb k' k) eqn:E3; [|reflexivity].
      apply String.eqb_eq in E3. subst. rewrite String.eqb_refl in E. discriminate.
Qed.

Lemma fold_dset : forall V (l : list (string * V)) acc f v,
  dget (fold_left (fun acc p => dset acc (fst p) (snd p)) l acc) f = Some v ->
  In (f, v) l \/ dget acc f = Some v.
Proof.
  induction l as [|(k & x) l IH]; intros acc f v H; cbn [fold_left fst snd] in H; [auto|].
  apply IH in H. destruct H as [H|H]; [left; now right|]. rewrite dget_dset in H.
  destruct (String.eqb f k) eqn:E; [|auto]. apply String.eqb_eq in E. left. left. congruence.
Qed.

Lemma fold_dset_some : forall V (l : list (string * V)) acc f,
  In f (map fst l) \/ dget acc f <> None -> dget (fold_left (fun acc p => dset acc (fst p) (snd p)) l acc) f <> None.
Proof.
  induction l as [|(k & x) l IH]; intros acc f H; cbn [fold_left fst snd].
  - destruct H as [[]|H]; auto.
  - apply IH. rewrite dget_dset. cbn in H. destruct (String.eqb f k) eqn:E; [right; discriminate|].
    destruct H as [[H|H]|H]; [subst; rewrite String.eqb_refl in E; discriminate|auto|auto].
Qed.

Lemma name_to_decl_spec : forall fns names, List.length names = List.length fns ->
  forall f, (In f names -> exists d, dget (name_to_decl fns names) f = Some d) /\
            (forall d, dget (name_to_decl fns names) f = Some d -> In (f, d) (combine names fns)).
Proof.
  intros fns names L f. unfold name_to_decl. split.
  - intros IN. destruct (dget _ f) eqn:E; [eauto|]. exfalso. revert E. apply fold_dset_some. left.
    assert (M : map fst (combine names fns) = names).
    { clear IN. revert fns L. induction names as [|n names IH]; intros [|d fns] L; try discriminate; [reflexivity|]. cbn. f_equal. apply IH. cbn in L. lia. }
    now rewrite M.
  - intros d H. apply fold_dset in H. destruct H as [H|H]; [auto|discriminate].
Qed.

Definition nm (d : expr) : string := match decl_name d with Ok f => f | Err _ => "" end.
Definition bd (d : expr) : expr := match decl_body d with Ok b => b | Err _ => Atom PNone end.

Lemma combine_map_nm : forall l f d, In (f, d) (combine (map nm l) l) -> In d l /\ nm d = f.
Proof.
  induction l as [|x l IH]; intros f d; [intros []|]. cbn. intros [E|H]; [injection E as <- <-; auto|].
  destruct (IH _ _ H). auto.
Qed.

Lemma nm_unique : forall l d e, NoDup (map nm l) -> In d l -> In e l -> nm d = nm e -> d = e.
Proof.
  induction l as [|x l IH]; intros d e N D E H; [contradiction|]. cbn in N. inversion N; subst.
  destruct D as [->|D], E as [->|E]; auto.
  - exfalso. apply H2. rewrite H. now apply in_map.
  - exfalso. apply H2. rewrite <- H. now apply in_map.
Qed.

Section Sort.
  Variable nx : list (string * string) -> option (list string).
  Variable so : list string -> list string.
  Hypothesis NX : nx_spec nx.
  Hypothesis SO : set_spec so.

  Variable ds : list expr.
  Hypothesis PROPER : Forall proper ds.

  Let fns := filter is_fn_decl ds.
  Let names := map nm fns.
  Definition edges_of (d : expr) : list (string * string) :=
    map (fun g => (g, nm d)) (filter (fun g => negb (String.eqb (nm d) g)) (dependent_fn_names names (bd d))).
  Let es := concat (map edges_of fns).

  Lemma fns_proper : forall d, In d fns -> decl_name d = Ok (nm d) /\ decl_body d = Ok (bd d).
  Proof.
    intros d IN. unfold fns in IN. apply filter_In in IN. destruct IN as [IN F]. rewrite Forall_forall in PROPER.
    destruct (PROPER d IN F) as (f & b & N & B). unfold nm, bd. rewrite N, B. auto.
  Qed.

  Lemma sort_unfold : topological_sort nx so ds =
    match nx es with
    | None => Err ExValue
    | Some ordered =>
        let independent := so (nodup string_dec (filter (fun f => negb (smem f ordered)) names)) in
        a <- mapR (lookup_decl (name_to_decl fns names)) ordered ;;
        b <- mapR (lookup_decl (name_to_decl fns names)) independent ;;
        Ok (a ++ b ++ filter (fun d => negb (is_fn_decl d)) ds)
    end.
  Proof.
    unfold topological_sort. fold fns. rewrite (mapR_map _ _ decl_name nm fns) by (intros; apply fns_proper; auto).
    cbn [bindR]. fold names.
    rewrite (mapR_map _ _ (decl_edges names) edges_of fns).
    2:{ intros d IN. destruct (fns_proper d IN) as [N B]. unfold decl_edges. rewrite N, B. reflexivity. }
    cbn [bindR]. reflexivity.
  Qed.

  Lemma defined_names : forall f, defined ds f <-> In f names.
  Proof.
    intros f. unfold defined, names. rewrite in_map_iff. split.
    - intros (d & IN & F & N). exists d. split; [unfold nm; now rewrite N|]. unfold fns. apply filter_In. auto.
    - intros (d & <- & IN). exists d. pose proof (fns_proper d IN) as [N _]. unfold fns in IN. apply filter_In in IN. destruct IN. unfold is_named. auto.
  Qed.

  Lemma edge_linked : forall g f, edge es g f <-> linked ds g f.
  Proof.
    intros g f. unfold edge, es. rewrite in_concat. split.
    - intros (x & X & IN). apply in_map_iff in X. destruct X as (d & <- & D).
      unfold edges_of in IN. apply in_map_iff in IN. destruct IN as (g' & E & IN). injection E as -> <-.
      apply filter_In in IN. destruct IN as [IN NE]. apply dependent_spec in IN. destruct IN as [IN M].
      destruct (fns_proper d D) as [N B]. split; [now apply defined_names|]. split.
      + intros ->. rewrite String.eqb_refl in NE. discriminate.
      + exists d, (bd d). unfold fns in D. apply filter_In in D. destruct D. unfold is_named, has_body. auto.
    - intros (DG & NE & d & b & IN & F & N & B & M).
      exists (edges_of d). assert (D : In d fns) by (apply filter_In; auto). split; [apply in_map; auto|].
      unfold edges_of. assert (En : nm d = f) by (unfold nm; now rewrite N). assert (Eb : bd d = b) by (unfold bd; now rewrite B).
      rewrite En, Eb. apply in_map_iff. exists g. split; auto. apply filter_In. split.
      + apply dependent_spec. split; auto. now apply defined_names.
      + destruct (String.eqb f g) eqn:E; [apply String.eqb_eq in E; congruence|reflexivity].
  Qed.

  Lemma node_defined : forall x, node es x -> In x names.
  Proof.
    intros x (y & [E|E]); apply edge_linked in E; destruct E as (D & _ & d & b & IN & F & N & _).
    - now apply defined_names.
    - apply defined_names. exists d. auto.
  Qed.

  Lemma cyclic_ext : forall A (R S : A -> A -> Prop), (forall x y, R x y <-> S x y) -> cyclic R -> cyclic S.
  Proof.
    intros A R S E (x & C). exists x.
    assert (P : forall a b, clos_trans _ R a b -> clos_trans _ S a b).
    { induction 1; [apply t_step, E; auto | eapply t_trans; eauto]. }
    auto.
  Qed.

  Lemma lookups : forall l, (forall x, In x l -> In x names) ->
    exists r, mapR (lookup_decl (name_to_decl fns names)) l = Ok r /\
      Forall2 (fun f d => dget (name_to_decl fns names) f = Some d) l r.
  Proof.
    assert (LEN : List.length names = List.length fns) by (unfold names; apply map_length).
    induction l as [|a l IH]; intros H; [exists []; split; [reflexivity|constructor]|].
    destruct IH as (r & E & F2); [intros; apply H; now right|].
    destruct (proj1 (name_to_decl_spec fns names LEN a) (H a (or_introl eq_refl))) as (d & D).
    exists (d :: r). cbn [mapR]. unfold lookup_decl at 1. rewrite D. cbn [bindR]. rewrite E. split; [reflexivity|]. constructor; auto.
  Qed.

  (** the outcome *)
  Lemma sort_raises : (exists x, topological_sort nx so ds = Err x) <-> cyclic (linked ds).
  Proof.
    rewrite sort_unfold. pose proof (NX es) as H. destruct (nx es) as [ordered|].
    - destruct H as (N & I & O). cbv zeta.
      destruct (lookups ordered) as (a & A & _); [intros x X; apply node_defined, I; auto|].
      destruct (lookups (so (nodup string_dec (filter (fun f => negb (smem f ordered)) names)))) as (b & B & _).
      { intros x X. apply (Permutation_in _ (SO _)) in X. apply nodup_In in X. apply filter_In in X. tauto. }
      rewrite A, B. cbn [bindR]. split; [intros (x & E); discriminate|]. intros C. exfalso.
      apply (ordered_acyclic (edge es) ordered N O). eapply cyclic_ext; [|exact C]. intros; symmetry; apply edge_linked.
    - split; [|eauto]. intros _. eapply cyclic_ext; [|exact H]. apply edge_linked.
  Qed.

  Hypothesis DISTINCT : NoDup names.

  Lemma found : forall f d, dget (name_to_decl fns names) f = Some d -> In d fns /\ nm d = f.
  Proof.
    intros f d H. apply combine_map_nm. change (In (f, d) (combine names fns)).
    apply (proj2 (name_to_decl_spec fns names ltac:(unfold names; apply map_length) f)). exact H.
  Qed.

  Lemma nm_inj : forall d e, In d fns -> In e fns -> nm d = nm e -> d = e.
  Proof.
    intros d e D E H. exact (nm_unique fns d e DISTINCT D E H).
  Qed.

  Lemma Forall2_nm : forall l r, Forall2 (fun f d => dget (name_to_decl fns names) f = Some d) l r ->
    map nm r = l /\ forall d, In d r -> In d fns.
  Proof.
    induction 1 as [|f d l r H F IH]; [split; [reflexivity|intros ? []]|]. destruct IH as [IH1 IH2].
    destruct (found _ _ H) as [D N]. split; [cbn; congruence|]. intros x [<-|X]; auto.
  Qed.

  Lemma before_map_inv : forall r (x y : expr), before (nm x) (nm y) (map nm r) -> In x fns -> In y fns ->
    (forall d, In d r -> In d fns) -> before x y r.
  Proof.
    intros r x y (l1 & l2 & l3 & E) X Y S.
    apply map_eq_app in E. destruct E as (r1 & r' & -> & _ & E).
    destruct r' as [|d r']; [discriminate|]. cbn in E. injection E as E1 E.
    apply map_eq_app in E. destruct E as (r2 & r'' & -> & _ & E).
    destruct r'' as [|d' r3]; [discriminate|]. cbn in E. injection E as E2 E.
    assert (In d fns) by (apply S, in_or_app; right; left; auto).
    assert (In d' fns) by (apply S, in_or_app; right; right; apply in_or_app; right; left; auto).
    rewrite <- (nm_inj d x), <- (nm_inj d' y) by auto. exists r1, r2, r3. reflexivity.
  Qed.

  Lemma sort_ok : forall out, topological_sort nx so ds = Ok out ->
    exists sorted, out = sorted ++ filter (fun d => negb (is_fn_decl d)) ds /\
      Permutation sorted fns /\
      forall d e, In d fns -> In e fns -> linked ds (nm d) (nm e) -> before d e sorted.
  Proof.
    intros out. rewrite sort_unfold. pose proof (NX es) as H. destruct (nx es) as [ordered|]; [|discriminate].
    destruct H as (N & I & O). cbv zeta.
    set (rest := so (nodup string_dec (filter (fun f => negb (smem f ordered)) names))).
    assert (REST : Permutation rest (nodup string_dec (filter (fun f => negb (smem f ordered)) names))) by apply SO.
    assert (INR : forall x, In x rest <-> In x names /\ ~ In x ordered).
    { intros x. split.
      - intros X. apply (Permutation_in _ REST) in X. apply nodup_In in X. apply filter_In in X. destruct X as [X S].
        split; auto. intros Y. apply smem_in in Y. rewrite Y in S. discriminate.
      - intros [X Y]. apply (Permutation_in _ (Permutation_sym REST)). apply nodup_In, filter_In. split; auto.
        apply negb_true_iff, not_true_iff_false. now rewrite smem_in. }
    destruct (lookups ordered) as (a & A & FA); [intros x X; apply node_defined, I; auto|].
    destruct (lookups rest) as (b & B & FB); [intros x X; now apply INR in X|].
    rewrite A, B. cbn [bindR]. intros E. injection E as <-.
    destruct (Forall2_nm _ _ FA) as [NA SA]. destruct (Forall2_nm _ _ FB) as [NB SB].
    exists (a ++ b). split; [now rewrite app_assoc|]. split.
    - assert (NAB : NoDup (map nm (a ++ b))).
      { rewrite map_app, NA, NB. apply NoDup_app_intro; auto.
        - apply (Permutation_NoDup (Permutation_sym REST)), NoDup_nodup.
        - intros x X Y. apply INR in Y. tauto. }
      apply NoDup_Permutation.
      + exact (NoDup_map_inv _ _ NAB).
      + exact (NoDup_map_inv _ _ DISTINCT).
      + intros d. split.
        * intros X. apply in_app_or in X. destruct X; auto.
        * intros D. assert (M : In (nm d) (map nm (a ++ b))).
          { rewrite map_app, NA, NB. apply in_or_app. assert (X : In (nm d) names) by (apply in_map; auto).
            destruct (in_dec string_dec (nm d) ordered); [auto|]. right. apply INR. auto. }
          apply in_map_iff in M. destruct M as (d' & E & X).
          assert (D' : In d' fns) by (apply in_app_or in X; destruct X; auto).
          now rewrite <- (nm_inj d' d D' D E).
    - intros d e D E L. apply edge_linked in L. apply O in L. apply before_app_l. apply before_map_inv; auto. now rewrite NA.
  Qed.
End Sort.
