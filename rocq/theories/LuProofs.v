(** Proofs about the texts and arguments of llmlift_scripts/utils.py. *)

From Coq Require Import String Ascii List Bool Arith Lia Permutation Sorted NArith.
From Verif Require Import Ast LuModel.
Import ListNotations.
Local Open Scope string_scope.

(** ** strings *)

Lemma sapp_assoc a b c : (a ++ b) ++ c = a ++ (b ++ c).
Proof. induction a as [|x a IH]; [reflexivity|]. cbn. now rewrite IH. Qed.
Lemma sapp_nil a : a ++ "" = a.
Proof. induction a as [|x a IH]; [reflexivity|]. cbn. now rewrite IH. Qed.
Lemma slen_app a b : String.length (a ++ b) = (String.length a + String.length b)%nat.
Proof. induction a as [|x a IH]; [reflexivity|]. cbn. now rewrite IH. Qed.

Lemma after_app p s : after p (p ++ s) = Some s.
Proof. induction p as [|c p IH]; [destruct s; reflexivity|]. cbn. now rewrite Ascii.eqb_refl. Qed.
Lemma after_inv p : forall s r, after p s = Some r -> s = p ++ r.
Proof.
  induction p as [|c p IH]; intros s r H; cbn in H; [injection H as ->; reflexivity|]. destruct s as [|b s]; [discriminate|].
  destruct (Ascii.eqb_spec c b) as [->|]; [|discriminate]. cbn. f_equal. now apply IH.
Qed.
Lemma after_prefix p : forall a b, (String.length p <= String.length a)%nat ->
  after p (a ++ b) = match after p a with Some r => Some (r ++ b) | None => None end.
Proof.
  induction p as [|c p IH]; intros a b H; [reflexivity|]. destruct a as [|x a]; [cbn in H; lia|]. cbn in *.
  destruct (Ascii.eqb c x); [|reflexivity]. apply IH. lia.
Qed.

Lemma until_eq p s : until p s = match after p s with
  | Some r => Some ("", r)
  | None => match s with
            | EmptyString => None
            | String c s' => match until p s' with Some (g, r) => Some (String c g, r) | None => None end
            end
  end.
Proof. destruct s; reflexivity. Qed.

(** the first [p] of [g ++ p] is at its end *)
Definition first_at_end (p g : string) : Prop := forall q r, g ++ p = q ++ p ++ r -> r = "".
(** [p] is not in [s] *)
Definition absent (p s : string) : Prop := forall q r, s <> q ++ p ++ r.

Lemma first_tail p c g : first_at_end p (String c g) -> first_at_end p g.
Proof. intros H q r E. apply (H (String c q) r). cbn. now rewrite E. Qed.
Lemma absent_tail p c s : absent p (String c s) -> absent p s.
Proof. intros H q r E. apply (H (String c q) r). cbn. now rewrite E. Qed.
Lemma absent_after p s : absent p s -> after p s = None.
Proof. intros H. destruct (after p s) as [r|] eqn:E; [|reflexivity]. apply after_inv in E. exfalso. exact (H "" r E). Qed.

Lemma first_after p c g s : first_at_end p (String c g) -> after p (String c g ++ p ++ s) = None.
Proof.
  intros H. rewrite <- sapp_assoc. rewrite after_prefix by (rewrite slen_app; lia).
  destruct (after p (String c g ++ p)) as [r|] eqn:E; [|reflexivity]. apply after_inv in E.
  pose proof (H "" r E) as ->. rewrite sapp_nil in E. apply (f_equal String.length) in E. rewrite slen_app in E. cbn in E. lia.
Qed.

Lemma until_first p : forall g s, first_at_end p g -> until p (g ++ p ++ s) = Some (g, s).
Proof.
  induction g as [|c g IH]; intros s H; rewrite until_eq.
  - change ("" ++ p ++ s) with (p ++ s). now rewrite after_app.
  - rewrite first_after by exact H. change (String c g ++ p ++ s) with (String c (g ++ p ++ s)). cbn iota.
    now rewrite IH by now apply first_tail in H.
Qed.

Lemma until_len p : forall s g r, until p s = Some (g, r) -> (String.length r + String.length p <= String.length s)%nat.
Proof.
  induction s as [|c s IH]; intros g r H; rewrite until_eq in H.
  - destruct (after p "") eqn:E; [|discriminate]. apply after_inv in E. injection H as <- <-. rewrite E, slen_app. lia.
  - destruct (after p (String c s)) eqn:E.
    + apply after_inv in E. injection H as <- <-. rewrite E, slen_app. lia.
    + destruct (until p s) as [[g' r']|] eqn:U; [|discriminate]. injection H as <- <-. specialize (IH _ _ eq_refl). cbn. lia.
Qed.
Lemma drop_len l s : (String.length (drop_tag l s) <= String.length s)%nat.
Proof.
  induction l as [|t l IH]; [reflexivity|]. cbn. destruct (after t s) eqn:E; [|exact IH]. apply after_inv in E. rewrite E, slen_app. lia.
Qed.

(** a single character is first at the end if it is not in the text *)
Fixpoint has (c : ascii) (s : string) : bool :=
  match s with EmptyString => false | String d s' => Ascii.eqb c d || has c s' end.
Lemma has_app c a b : has c (a ++ b) = has c a || has c b.
Proof. induction a; cbn; [reflexivity|]. rewrite IHa. now rewrite orb_assoc. Qed.
Lemma first_char c : forall g, has c g = false -> first_at_end (String c "") g.
Proof.
  induction g as [|d g IH]; intros H q r E.
  - destruct q as [|x q]; [cbn in E; congruence|]. cbn in E. injection E as _ E. destruct q; discriminate.
  - cbn in H. apply orb_false_iff in H as [H1 H2]. destruct q as [|x q].
    + cbn in E. injection E as -> _. now rewrite Ascii.eqb_refl in H1.
    + cbn in E. injection E as _ E. now apply (IH H2 q r).
Qed.

Lemma run_is c g s : g <> "" -> has c g = false -> run c (g ++ String c s) = Some (g, s).
Proof.
  intros NE H. unfold run. change (String c s) with (String c "" ++ s). rewrite until_first by now apply first_char.
  destruct g; [congruence|reflexivity].
Qed.

(** ** fuel *)

Lemma extract_step fuel s : extract_from (S fuel) s =
  let skip := match s with EmptyString => Some [] | String _ s' => extract_from fuel s' end in
  match after fence s with
  | Some r => match until fence (drop_tag tags r) with
              | Some (g, rest) => match extract_from fuel rest with Some l => Some (g :: l) | None => None end
              | None => skip
              end
  | None => skip
  end.
Proof. reflexivity. Qed.

Lemma extract_fuel : forall n m s, (String.length s < n)%nat -> (String.length s < m)%nat ->
  extract_from n s = extract_from m s /\ exists l, extract_from n s = Some l.
Proof.
  induction n as [|n IH]; intros m s N M; [lia|]. destruct m as [|m]; [lia|]. rewrite !extract_step. cbv zeta.
  assert (SK : match s with EmptyString => Some [] | String _ s' => extract_from n s' end =
    match s with EmptyString => Some [] | String _ s' => extract_from m s' end /\
    exists l, match s with EmptyString => Some [] | String _ s' => extract_from n s' end = Some l).
  { destruct s as [|c s]; [eauto|]. cbn in N, M. apply IH; lia. }
  destruct (after fence s) as [r|] eqn:A; [|exact SK].
  destruct (until fence (drop_tag tags r)) as [[g rest]|] eqn:U; [|exact SK].
  apply after_inv in A. apply until_len in U. pose proof (drop_len tags r). rewrite A, slen_app in N, M. change (String.length fence) with 3%nat in *.
  destruct (IH m rest) as [E (l & E')]; [lia..|]. rewrite <- E, E'. eauto.
Qed.

Definition extract := extract_all_python_functions.

Lemma extract_skip c s : after fence (String c s) = None -> extract (String c s) = extract s.
Proof.
  intros H. unfold extract, extract_all_python_functions. rewrite extract_step. cbv zeta. rewrite H. cbn [String.length]. apply extract_fuel; lia.
Qed.
Lemma extract_block r g rest : until fence (drop_tag tags r) = Some (g, rest) ->
  extract (fence ++ r) = match extract rest with Some l => Some (g :: l) | None => None end.
Proof.
  intros U. unfold extract, extract_all_python_functions. rewrite extract_step. cbv zeta. rewrite after_app, U.
  apply until_len in U. pose proof (drop_len tags r). rewrite slen_app. change (String.length fence) with 3%nat in *.
  destruct (extract_fuel (3 + String.length r)%nat (S (String.length rest)) rest) as [E _]; [lia..|]. now rewrite E.
Qed.
Lemma extract_prose : forall p s, first_at_end fence p -> extract (p ++ fence ++ s) = extract (fence ++ s).
Proof.
  induction p as [|c p IH]; intros s H; [reflexivity|].
  pose proof (first_after fence c p s H) as A. change (String c p ++ fence ++ s) with (String c (p ++ fence ++ s)) in *.
  rewrite extract_skip by exact A. apply IH. now apply first_tail in H.
Qed.
Lemma extract_none : forall s, absent fence s -> extract s = Some [].
Proof.
  induction s as [|c s IH]; intros H; [reflexivity|]. rewrite extract_skip by now apply absent_after. apply IH. now apply absent_tail in H.
Qed.

Lemma ite_len s t r : ite_match s = Some (t, r) -> (String.length r < String.length s)%nat.
Proof.
  unfold ite_match. destruct (after "ite(" s) as [r1|] eqn:A; [|discriminate]. apply after_inv in A. rewrite A, slen_app.
  assert (R : forall c u g v, run c u = Some (g, v) -> (String.length v <= String.length u)%nat).
  { intros c u g v. unfold run. destruct (until _ u) as [[[|x g'] v']|] eqn:U; try discriminate. intros [= <- <-]. apply until_len in U. cbn in U. lia. }
  destruct (run "," r1) as [[? r2]|] eqn:E1; [|discriminate]. destruct (run "," r2) as [[? r3]|] eqn:E2; [|discriminate].
  destruct (run ")" r3) as [[? r4]|] eqn:E3; [|discriminate]. intros [= <- <-].
  apply R in E1. apply R in E2. apply R in E3. cbn. lia.
Qed.

Lemma replace_fuel : forall n m s, (String.length s < n)%nat -> (String.length s < m)%nat ->
  replace_ite_from n s = replace_ite_from m s /\ exists u, replace_ite_from n s = Some u.
Proof.
  induction n as [|n IH]; intros m s N M; [lia|]. destruct m as [|m]; [lia|]. cbn [replace_ite_from].
  destruct (ite_match s) as [[t r]|] eqn:E.
  - apply ite_len in E. destruct (IH m r) as [Q (u & Q')]; [lia..|]. rewrite <- Q, Q'. eauto.
  - destruct s as [|c s]; [eauto|]. cbn in N, M. destruct (IH m s) as [Q (u & Q')]; [lia..|]. rewrite <- Q, Q'. eauto.
Qed.
Lemma replace_skip c s : ite_match (String c s) = None ->
  replace_ite (String c s) = match replace_ite s with Some u => Some (String c u) | None => None end.
Proof. intros H. unfold replace_ite. cbn [replace_ite_from String.length]. rewrite H. reflexivity. Qed.
Lemma replace_match s t r : ite_match s = Some (t, r) ->
  replace_ite s = match replace_ite r with Some u => Some (t ++ u) | None => None end.
Proof.
  intros H. unfold replace_ite. pose proof (ite_len _ _ _ H). cbn [replace_ite_from]. rewrite H.
  destruct (replace_fuel (String.length s) (S (String.length r)) r) as [E _]; [lia..|]. now rewrite E.
Qed.
Lemma replace_pre : forall p s, first_at_end "ite(" p ->
  replace_ite (p ++ "ite(" ++ s) = match replace_ite ("ite(" ++ s) with Some u => Some (p ++ u) | None => None end.
Proof.
  induction p as [|c p IH]; intros s H.
  - change ("" ++ "ite(" ++ s) with ("ite(" ++ s). now destruct (replace_ite ("ite(" ++ s)).
  - pose proof (first_after "ite(" c p s H) as A. change (String c p ++ "ite(" ++ s) with (String c (p ++ "ite(" ++ s)) in *.
    rewrite replace_skip by (unfold ite_match; now rewrite A). rewrite IH by now apply first_tail in H.
    now destruct (replace_ite ("ite(" ++ s)).
Qed.
Lemma replace_none : forall s, absent "ite(" s -> replace_ite s = Some s.
Proof.
  induction s as [|c s IH]; intros H; [reflexivity|].
  rewrite replace_skip by (unfold ite_match; now rewrite absent_after). now rewrite IH by now apply absent_tail in H.
Qed.

(** ** order of names *)

Lemma acompare_trans a b c : Ascii.compare a b = Lt -> Ascii.compare b c = Lt -> Ascii.compare a c = Lt.
Proof. unfold Ascii.compare. rewrite !N.compare_lt_iff. lia. Qed.
Lemma acompare_eq a b : Ascii.compare a b = Eq -> a = b.
Proof. apply Ascii.compare_eq_iff. Qed.
Lemma acompare_refl a : Ascii.compare a a = Eq.
Proof. unfold Ascii.compare. apply N.compare_refl. Qed.

Definition slt (a b : string) : Prop := String.compare a b = Lt.
Lemma slt_trans : forall a b c, slt a b -> slt b c -> slt a c.
Proof.
  unfold slt. induction a as [|x a IH]; intros [|y b] [|z c]; cbn; try discriminate; auto.
  destruct (Ascii.compare x y) eqn:E1; [apply acompare_eq in E1; subst| |discriminate];
    (destruct (Ascii.compare y z) eqn:E2; [apply acompare_eq in E2; subst| |discriminate]); intros H1 H2.
  - eauto using acompare_refl.
  - reflexivity.
  - now rewrite E1.
  - now rewrite (acompare_trans _ _ _ E1 E2).
Qed.
Lemma slt_irrefl a : ~ slt a a.
Proof. unfold slt. intros H. induction a as [|x a IH]; [discriminate|]. cbn in H. rewrite acompare_refl in H. auto. Qed.
Lemma leb_false a b : String.leb a b = false -> slt b a.
Proof.
  unfold String.leb, slt. rewrite (String.compare_antisym b a). destruct (String.compare a b); try discriminate. reflexivity.
Qed.
Lemma leb_true a b : String.leb a b = true -> a <> b -> slt a b.
Proof.
  unfold String.leb, slt. destruct (String.compare a b) eqn:E; try discriminate; [|reflexivity].
  apply String.compare_eq_iff in E. congruence.
Qed.

Lemma insert_perm v l : Permutation (insert v l) (v :: l).
Proof. induction l as [|w l IH]; cbn; [reflexivity|]. destruct (String.leb _ _); [reflexivity|]. rewrite IH. apply perm_swap. Qed.
Lemma sorted_perm l : Permutation (sorted_by_name l) l.
Proof. induction l; cbn; [reflexivity|]. rewrite insert_perm. now constructor. Qed.

Definition vlt (v w : var) : Prop := slt (fst v) (fst w).
Lemma insert_sorted v l : ~ In (fst v) (map fst l) -> StronglySorted vlt l -> StronglySorted vlt (insert v l).
Proof.
  intros NI H. induction H as [|w l H IH F]; cbn; [repeat constructor|]. cbn in NI.
  destruct (String.leb (fst v) (fst w)) eqn:E.
  - assert (Q : vlt v w) by (apply leb_true; [exact E | intros Q; apply NI; left; congruence]).
    constructor; [now constructor|]. constructor; [exact Q|]. eapply Forall_impl; [|exact F]. intros u Z. exact (slt_trans _ _ _ Q Z).
  - constructor; [apply IH; tauto|]. apply leb_false in E. rewrite insert_perm. constructor; assumption.
Qed.
Lemma sorted_sorted l : NoDup (map fst l) -> StronglySorted vlt (sorted_by_name l).
Proof.
  induction l as [|v l IH]; intros N; cbn; [constructor|]. inversion N; subst. apply insert_sorted; [|now apply IH].
  intros Q. apply H1. eapply Permutation_in; [apply Permutation_map, sorted_perm|exact Q].
Qed.

(** a strictly sorted list is determined by its elements *)
Lemma sorted_unique : forall l m, StronglySorted vlt l -> StronglySorted vlt m -> Permutation l m -> l = m.
Proof.
  induction l as [|v l IH]; intros m L M P.
  - now apply Permutation_nil in P.
  - destruct m as [|w m]; [symmetry in P; apply Permutation_nil in P; discriminate|].
    inversion L as [|? ? L1 L2]; inversion M as [|? ? M1 M2]; subst.
    assert (v = w) as ->.
    { assert (I1 : In v (w :: m)) by (eapply Permutation_in; [exact P | now left]).
      assert (I2 : In w (v :: l)) by (eapply Permutation_in; [symmetry; exact P | now left]).
      destruct I1 as [|I1]; [congruence|]. destruct I2 as [|I2]; [congruence|].
      rewrite Forall_forall in L2, M2. exfalso. apply (slt_irrefl (fst v)). eapply slt_trans; [apply (L2 _ I2) | apply (M2 _ I1)]. }
    f_equal. apply IH; auto. now apply Permutation_cons_inv in P.
Qed.

(** ** sets of variables *)
Lemma existsb_name (kept : list var) x : existsb (fun w => String.eqb (fst w) x) kept = true <-> In x (map fst kept).
Proof.
  rewrite existsb_exists, in_map_iff. split.
  - intros (w & I & E). apply String.eqb_eq in E. eauto.
  - intros (w & E & I). exists w. split; [exact I|]. now apply String.eqb_eq.
Qed.
(** [v] is the first of [l] with its name *)
Definition first_named (l : list var) (v : var) : Prop :=
  exists a b, l = (a ++ v :: b)%list /\ ~ In (fst v) (map fst a).

Lemma py_set_spec : forall l kept, NoDup (map fst kept) ->
  NoDup (map fst (py_set kept l)) /\
  (forall v, In v (py_set kept l) <-> In v kept \/ (~ In (fst v) (map fst kept) /\ first_named l v)).
Proof.
  induction l as [|w l IH]; intros kept N; cbn [py_set].
  - split; [exact N|]. intros v. split; [now left|]. intros [H|[_ (a & b & E & _)]]; [exact H|]. now destruct a.
  - destruct (existsb _ kept) eqn:E.
    + apply existsb_name in E. destruct (IH kept N) as [N' S']. split; [exact N'|]. intros v. rewrite S'. split.
      * intros [H|[H (a & b & -> & Q)]]; [now left|]. right. split; [exact H|]. exists (w :: a), b. split; [reflexivity|].
        cbn. intros [Z|Z]; [apply H; congruence | now apply Q].
      * intros [H|[H (a & b & Q & R)]]; [now left|]. destruct a as [|u a]; injection Q as -> Q; [contradiction|]. right. split; [exact H|].
        exists a, b. split; [exact Q|]. cbn in R. tauto.
    + assert (NI : ~ In (fst w) (map fst kept)) by (rewrite <- existsb_name, E; discriminate).
      assert (N1 : NoDup (map fst (kept ++ [w]))).
      { rewrite map_app. cbn.
        apply (Permutation_NoDup (l := fst w :: map fst kept)); [apply Permutation_cons_append|]. now constructor. }
      destruct (IH _ N1) as [N' S']. split; [exact N'|]. intros v. rewrite S', in_app_iff, map_app, in_app_iff. cbn. split.
      * intros [[H|[->|[]]]|[H (a & b & -> & Q)]]; [now left| |].
        -- right. split; [exact NI|]. exists [], l. split; [reflexivity|]. intros [].
        -- right. split; [tauto|]. exists (w :: a), b. split; [reflexivity|]. cbn. intros [Z|Z]; [apply H; right; left; congruence | now apply Q].
      * intros [H|[H (a & b & Q & R)]]; [left; now left|]. destruct a as [|u a]; injection Q as -> Q.
        -- left. right. now left.
        -- right. cbn in R. split; [tauto|]. exists a, b. split; [exact Q | tauto].
Qed.

(** ** white space *)
Lemma white_is_space c : is_space c = true <-> In c ["009"; "010"; "011"; "012"; "013"; "028"; "029"; "030"; "031"; " "]%char.
Proof.
  split.
  - destruct c as [[] [] [] [] [] [] [] []]; cbn; intros H; try discriminate H; tauto.
  - cbn. intros H. decompose [or] H; subst; reflexivity || contradiction.
Qed.
Lemma lstrip_spec s : exists a, s = a ++ lstrip s /\ (forall x c y, a = x ++ String c y -> is_space c = true) /\
  (forall c t, lstrip s = String c t -> is_space c = false).
Proof.
  induction s as [|d s (a & E & W & F)]; cbn.
  - exists "". split; [reflexivity|]. split; [intros [|? x]; discriminate | discriminate].
  - destruct (is_space d) eqn:D.
    + exists (String d a). split; [cbn; now rewrite <- E|]. split; [|exact F].
      intros [|? x] c y Q; cbn in Q; injection Q as -> Q; [exact D | exact (W _ _ _ Q)].
    + exists "". split; [reflexivity|]. split; [intros [|? x]; discriminate|]. intros c t [= <- _]. exact D.
Qed.
Lemma rstrip_spec s : exists b, s = rstrip s ++ b /\ (forall x c y, b = x ++ String c y -> is_space c = true) /\
  (forall t c, rstrip s = t ++ String c "" -> is_space c = false) /\
  (forall c t, rstrip s = String c t -> exists t', s = String c t').
Proof.
  induction s as [|d s (b & E & W & F & K)]; cbn.
  - exists "". split; [reflexivity|]. split; [intros [|? x]; discriminate|]. split; [intros [|? t]; discriminate | discriminate].
  - destruct (rstrip s) as [|e r] eqn:R.
    + destruct (is_space d) eqn:D.
      * exists (String d b). split; [cbn; now rewrite E at 1|]. split; [|split; [intros [|? t]; discriminate | discriminate]].
        intros [|? x] c y Q; cbn in Q; injection Q as -> Q; [exact D | exact (W _ _ _ Q)].
      * exists b. split; [cbn; now rewrite E at 1|]. split; [exact W|]. split.
        -- intros [|? [|? t]] c Q; try discriminate. injection Q as <-. exact D.
        -- intros c t [= <- _]. eauto.
    + exists b. split; [cbn; f_equal; exact E|]. split; [exact W|]. split.
      * intros [|? t] c Q; cbn in Q; [discriminate|]. injection Q as _ Q. exact (F t c Q).
      * intros c t [= <- _]. eauto.
Qed.
