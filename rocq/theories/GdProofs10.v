(** Whether a kernel runs does not depend on the values of its arguments. *)

From Coq Require Import String Ascii List ZArith Bool Lia QArith Qround.
From Verif Require Import Ast Dict Semantics SmtPrint UtilProofs IrProofs LibSem RktModel NpModel NpSem GdModel GdSem.
Import ListNotations.
Local Open Scope nat_scope.
Local Open Scope string_scope.
Local Open Scope list_scope.

Definition osame (a b : option lanes) : Prop := match a, b with Some _, Some _ | None, None => True | _, _ => False end.
Definition vsame (v w : cval) : Prop :=
  match v, w with
  | Sc _, Sc _ | Ve _, Ve _ | V2 _ _, V2 _ _ => True
  | V4 a b c d, V4 a' b' c' d' => osame a a' /\ osame b b' /\ osame c c' /\ osame d d'
  | _, _ => False
  end.
Definition psame (v w : bt * cval) : Prop := fst v = fst w /\ vsame (snd v) (snd w).
Definition alike {A} (R : A -> A -> Prop) (a b : option A) : Prop := match a, b with Some a, Some b => R a b | None, None => True | _, _ => False end.
Definition stsame (s s' : cst) : Prop := forall x, alike psame (s x) (s' x).

Ltac crush := repeat match goal with
  | H : False |- _ => destruct H
  | H : _ /\ _ |- _ => destruct H
  | |- context [match ?x with Some _ => _ | None => _ end] => is_var x; destruct x
  end; cbn in *; auto.

Lemma vsame_complete v w : vsame v w -> complete v = complete w.
Proof.
  destruct v as [| |a b c d|], w as [| |a' b' c' d'|]; cbn; try contradiction; auto. destruct a, a'; cbn; try tauto; destruct b, b'; cbn; try tauto; destruct c, c'; cbn; try tauto; destruct d, d'; cbn; tauto.
Qed.
Lemma vsame_all v w : vsame v w -> alike (fun _ _ => True) (all_lanes v) (all_lanes w).
Proof.
  destruct v as [| |a b c d|], w as [| |a' b' c' d'|]; cbn; try contradiction; auto. destruct a, a'; cbn; try tauto; destruct b, b'; cbn; try tauto; destruct c, c'; cbn; try tauto; destruct d, d'; cbn; tauto.
Qed.
Lemma vsame_field v w i : vsame v w -> osame (field v i) (field w i).
Proof.
  destruct v as [| |a b c d|], w as [| |a' b' c' d'|]; cbn; try contradiction; auto. all: destruct i as [|[|[|[|[|i]]]]]; cbn; tauto.
Qed.
Lemma vsame_set v w i l l' : vsame v w -> alike vsame (set_field v i l) (set_field w i l').
Proof.
  destruct v as [| |a b c d|], w as [| |a' b' c' d'|]; cbn; try contradiction; auto. all: destruct i as [|[|[|[|[|i]]]]]; cbn; tauto.
Qed.
Lemma of_lanes_same t l l' : alike vsame (of_lanes t l) (of_lanes t l').
Proof. destruct t; cbn; auto. Qed.
Lemma initial_same t v w : psame v w -> alike vsame (initial t v) (initial t w).
Proof.
  destruct v as (u & v), w as (u' & w). intros (E & S). cbn in E, S. subst u'. destruct v as [| |a b c d|], w as [| |a' b' c' d'|]; cbn in S; try contradiction; cbn.
  - destruct t; cbn; auto.
  - destruct (bt_eqb t u); cbn; auto.
  - destruct (bt_eqb t u); cbn; auto.
  - destruct (bt_eqb t u); cbn; auto.
Qed.

Section Same.
  Variables (tile tile' : string -> option lanes).
  Hypothesis Ht : forall x, alike (fun _ _ => True) (tile x) (tile' x).

  Lemma ceval_same st st' : stsame st st' -> forall e, no_divides e = true -> alike psame (ceval tile st e) (ceval tile' st' e).
  Proof.
    intros Hs. fix IH 1. intros [x|z|e i|op a b|f args|x i e] N.
    - cbn. specialize (Hs x). destruct (st x) as [(t & v)|], (st' x) as [(t' & v')|]; cbn in Hs; try contradiction; auto. destruct Hs as (E & S). cbn in E, S. subst t'.
      rewrite (vsame_complete _ _ S). destruct (complete v'); cbn; [split; auto|exact Logic.I].
    - cbn. destruct z; cbn; auto. split; cbn; auto.
    - destruct e as [x| | | | |]; cbn; auto. specialize (Hs x). destruct (st x) as [(t & v)|], (st' x) as [(t' & v')|]; cbn in Hs; try contradiction; auto. destruct Hs as (E & S). cbn in E, S. subst t'.
      destruct (field_type t); [|exact Logic.I]. pose proof (vsame_field _ _ i S). destruct (field v i), (field v' i); cbn in *; try contradiction; auto. split; cbn; auto.
    - cbn [no_divides] in N. apply andb_prop in N as (N & Nb). apply andb_prop in N as (N & Na). pose proof (IH a Na) as Ha. pose proof (IH b Nb) as Hb. cbn [ceval].
      destruct (ceval tile st a) as [(t & v)|], (ceval tile' st' a) as [(t' & v')|]; cbn in Ha; try contradiction; [|exact Logic.I]. destruct Ha as (E & S). cbn in E, S. subst t'.
      destruct (ceval tile st b) as [(u & w)|], (ceval tile' st' b) as [(u' & w')|]; cbn in Hb; try contradiction; [|exact Logic.I]. destruct Hb as (E & S'). cbn in E, S'. subst u'.
      assert (Op : forall a b a' b', alike (fun _ _ => True) (c_int op a b) (c_int op a' b')).
      { intros x y x' y'. unfold c_int. destruct (String.eqb op "+"); [exact Logic.I|]. destruct (String.eqb op "-"); [exact Logic.I|]. destruct (String.eqb op "*"); [exact Logic.I|].
        apply negb_true_iff, orb_false_iff in N as (-> & ->). destruct (y =? 0)%Z, (y' =? 0)%Z; exact Logic.I. }
      assert (Of : forall a b a' b', alike (fun _ _ => True) (c_float op a b) (c_float op a' b')).
      { intros x y x' y'. unfold c_float. destruct (String.eqb op "+"); [exact Logic.I|]. destruct (String.eqb op "-"); [exact Logic.I|]. destruct (String.eqb op "*"); [exact Logic.I|].
        apply negb_true_iff, orb_false_iff in N as (-> & _). exact Logic.I. }
      destruct v as [q| | |], v' as [q'| | |]; cbn in S; try contradiction; try (destruct t; exact Logic.I).
      destruct w as [p| | |], w' as [p'| | |]; cbn in S'; try contradiction; try (destruct t, u; exact Logic.I).
      destruct t, u; try exact Logic.I; cbn [c_bin];
        first [specialize (Op (ztrunc q) (ztrunc p) (ztrunc q') (ztrunc p')); destruct (c_int op _ _), (c_int op _ _); cbn in *; try contradiction; auto; split; reflexivity
              |specialize (Of q p q' p'); destruct (c_float op _ _), (c_float op _ _); cbn in *; try contradiction; auto; split; reflexivity].
    - destruct args as [|a [|b [|c [|e [|? ?]]]]]; try exact Logic.I.
      + cbn [no_divides forallb] in N. apply andb_prop in N as (Na & _). pose proof (IH a Na) as Ha. cbn [ceval].
        destruct (String.eqb f "v_reciprocal_fast_f32"); [|destruct (String.eqb f "v_i32_reduce_add"); [|exact Logic.I]];
        (destruct (ceval tile st a) as [(t & v)|], (ceval tile' st' a) as [(t' & v')|]; cbn in Ha; try contradiction; [|exact Logic.I]; destruct Ha as (E & S); cbn in E, S; subst t';
         destruct t; try exact Logic.I; destruct v, v'; cbn in S; try contradiction; try exact Logic.I; split; reflexivity).
      + cbn [no_divides forallb] in N. apply andb_prop in N as (Na & N). apply andb_prop in N as (Nb & _). pose proof (IH a Na) as Ha. pose proof (IH b Nb) as Hb. cbn [ceval].
        destruct (dget loads f) as [t|].
        { destruct a as [c| | | | |]; try exact Logic.I. destruct b as [y| | | | |]; try exact Logic.I. destruct (String.eqb c "inputCoord"); [|exact Logic.I]. pose proof (Ht y) as Ty. destruct (tile y), (tile' y); cbn in *; try contradiction; auto. split; reflexivity. }
        destruct (dget vec2 f) as [((t & u) & g)|].
        { destruct (ceval tile st a) as [(ta & v)|], (ceval tile' st' a) as [(ta' & v')|]; cbn in Ha; try contradiction; [|exact Logic.I]. destruct Ha as (E & S); cbn in E, S; subst ta'.
          destruct v as [|v| |], v' as [|v'| |]; cbn in S; try contradiction; try exact Logic.I.
          destruct (ceval tile st b) as [(tb & w)|], (ceval tile' st' b) as [(tb' & w')|]; cbn in Hb; try contradiction; [|exact Logic.I]. destruct Hb as (E & S'); cbn in E, S'; subst tb'.
          destruct w as [|w| |], w' as [|w'| |]; cbn in S'; try contradiction; try exact Logic.I. destruct (bt_eqb ta t && bt_eqb tb t); [|exact Logic.I].
          pose proof (of_lanes_same u (fun k => g (v k) (w k)) (fun k => g (v' k) (w' k))) as L. destruct (of_lanes u _), (of_lanes u _); cbn in *; try contradiction; auto. split; auto. }
        destruct (dget vec_conv f) as [((t & u) & g)|]; [|exact Logic.I].
        destruct (ceval tile st a) as [(ta & v)|], (ceval tile' st' a) as [(ta' & v')|]; cbn in Ha; try contradiction; [|exact Logic.I]. destruct Ha as (E & S); cbn in E, S; subst ta'.
        destruct b as [sw| | | | |]; try exact Logic.I. destruct (bt_eqb ta t); [|exact Logic.I]. pose proof (vsame_all _ _ S) as L. destruct (all_lanes v) as [l|], (all_lanes v') as [l'|]; cbn in L; try contradiction; [|exact Logic.I].
        pose proof (of_lanes_same u (fun k => g sw (l k)) (fun k => g sw (l' k))) as L'. destruct (of_lanes u _), (of_lanes u _); cbn in *; try contradiction; auto. split; auto.
      + cbn [no_divides forallb] in N. apply andb_prop in N as (Na & N). apply andb_prop in N as (Nb & N). apply andb_prop in N as (Nc & N). apply andb_prop in N as (Ne & _).
        pose proof (IH a Na) as Ha. pose proof (IH b Nb) as Hb. pose proof (IH c Nc) as Hc. pose proof (IH e Ne) as He. cbn [ceval]. destruct (dget vec_sel f) as [(t & g)|]; [|exact Logic.I].
        destruct (ceval tile st a) as [(ta & v)|], (ceval tile' st' a) as [(ta' & v')|]; cbn in Ha; try contradiction; [|exact Logic.I]. destruct Ha as (E & S); cbn in E, S; subst ta'. destruct v as [|v| |], v' as [|v'| |]; cbn in S; try contradiction; try exact Logic.I. clear S.
        destruct (ceval tile st b) as [(tb & w)|], (ceval tile' st' b) as [(tb' & w')|]; cbn in Hb; try contradiction; [|exact Logic.I]. destruct Hb as (E & S); cbn in E, S; subst tb'. destruct w as [|w| |], w' as [|w'| |]; cbn in S; try contradiction; try exact Logic.I. clear S.
        destruct (ceval tile st c) as [(tc & y)|], (ceval tile' st' c) as [(tc' & y')|]; cbn in Hc; try contradiction; [|exact Logic.I]. destruct Hc as (E & S); cbn in E, S; subst tc'. destruct y as [|y| |], y' as [|y'| |]; cbn in S; try contradiction; try exact Logic.I. clear S.
        destruct (ceval tile st e) as [(te & z)|], (ceval tile' st' e) as [(te' & z')|]; cbn in He; try contradiction; [|exact Logic.I]. destruct He as (E & S); cbn in E, S; subst te'. destruct z as [|z| |], z' as [|z'| |]; cbn in S; try contradiction; try exact Logic.I.
        destruct (bt_eqb ta t && bt_eqb tb t && bt_eqb tc t && bt_eqb te t); [split; reflexivity|exact Logic.I].
    - exact Logic.I.
  Qed.

  Lemma cset_same st st' x v v' : stsame st st' -> psame v v' -> stsame (cset st x v) (cset st' x v').
  Proof. intros S V y. unfold cset. destruct (String.eqb x y); [exact V|apply S]. Qed.
  Lemma chide_same st st' x : stsame st st' -> stsame (chide st x) (chide st' x).
  Proof. intros S y. unfold chide. destruct (String.eqb x y); [exact Logic.I|apply S]. Qed.

  Definition esame (a b : list string * cst) : Prop := fst a = fst b /\ stsame (snd a) (snd b).
  Lemma cexec_same seen st st' i : stsame st st' -> safe i = true -> alike esame (cexec tile seen st i) (cexec tile' seen st' i).
  Proof.
    intros S N. unfold cexec, safe in *. destruct (i_dest i) as [x|], (i_type i) as [t|], (i_exp i) as [e|]; try exact Logic.I.
    - destruct (smem x seen); [exact Logic.I|]. pose proof (ceval_same _ _ (chide_same _ _ x S) e N) as E. destruct (ceval tile _ e) as [v|], (ceval tile' _ e) as [v'|]; cbn in E; try contradiction; [|exact Logic.I].
      pose proof (initial_same t _ _ E) as L. destruct (initial t v), (initial t v'); cbn in L; try contradiction; [|exact Logic.I]. split; [reflexivity|]. apply cset_same; [exact S|split; auto].
    - destruct (smem x seen); [exact Logic.I|]. split; [reflexivity|]. cbn. destruct t; try (apply chide_same, S); (apply cset_same; [exact S|split; cbn; auto]).
    - pose proof (S x) as X. destruct (st x) as [(t & v)|], (st' x) as [(t' & v')|]; cbn in X; try contradiction; [|exact Logic.I]. destruct X as (E & _). cbn in E. subst t'.
      pose proof (ceval_same _ _ S e N) as E. destruct (ceval tile _ e) as [(u & w)|], (ceval tile' _ e) as [(u' & w')|]; cbn in E; try contradiction; [|exact Logic.I]. destruct E as (E & V). cbn in E, V. subst u'.
      destruct (bt_eqb t u); [|exact Logic.I]. split; [reflexivity|]. apply cset_same; [exact S|split; auto].
    - destruct e as [| | | | |x n e]; try exact Logic.I. pose proof (S x) as X. destruct (st x) as [(t & v)|], (st' x) as [(t' & v')|]; cbn in X; try contradiction; [|exact Logic.I]. destruct X as (E & Vv). cbn in E, Vv. subst t'.
      pose proof (ceval_same _ _ S e N) as E. destruct (ceval tile _ e) as [(u & w)|], (ceval tile' _ e) as [(u' & w')|]; cbn in E; try contradiction; [|exact Logic.I]. destruct E as (E & V). cbn in E, V. subst u'.
      destruct w as [|w| |], w' as [|w'| |]; cbn in V; try contradiction; try exact Logic.I. destruct (match field_type t with Some _ => _ | None => _ end); [|exact Logic.I].
      pose proof (vsame_set v v' n w w' Vv) as L. destruct (set_field v n w), (set_field v' n w'); cbn in L; try contradiction; [|exact Logic.I]. split; [reflexivity|]. apply cset_same; [exact S|split; auto].
  Qed.
  Lemma cexecs_same l : forall seen st st', stsame st st' -> forallb safe l = true -> alike stsame (cexecs tile seen st l) (cexecs tile' seen st' l).
  Proof.
    induction l as [|i l IH]; intros seen st st' S N; [exact S|]. cbn [forallb] in N. apply andb_prop in N as (N & Nl). cbn [cexecs].
    pose proof (cexec_same seen st st' i S N) as E. destruct (cexec tile seen st i) as [(s1 & t1)|], (cexec tile' seen st' i) as [(s2 & t2)|]; cbn in E; try contradiction; [|exact Logic.I].
    destruct E as (E & S'). cbn in E, S'. subst s2. apply IH; auto.
  Qed.
End Same.

Lemma scalar_args_same hs : forall vs vs', Forall2 same_kind vs vs' -> stsame (scalar_args hs vs) (scalar_args hs vs').
Proof.
  unfold scalar_args. induction hs as [|(y & h) hs IH]; intros vs vs' F; [intros x; exact Logic.I|]. destruct F as [|v v' vs vs' K F]; [intros x; exact Logic.I|]. cbn [combine fold_right].
  specialize (IH vs vs' F). destruct h, v, v'; cbn in K; try contradiction; try exact IH; (apply cset_same; [exact IH|split; cbn; auto]).
Qed.
Lemma tensor_args_same hs : forall vs vs', Forall2 same_kind vs vs' -> forall x, alike (fun _ _ => True) (tensor_args hs vs x) (tensor_args hs vs' x).
Proof.
  unfold tensor_args. induction hs as [|(y & h) hs IH]; intros vs vs' F x; [exact Logic.I|]. destruct F as [|v v' vs vs' K F]; [exact Logic.I|]. cbn [combine fold_right].
  specialize (IH vs vs' F x). destruct h; try exact IH. cbn. destruct (String.eqb y x); [|exact IH]. destruct v, v'; cbn in K; try contradiction; exact Logic.I.
Qed.

Lemma rounds_some {A} (step : nat -> A -> option A) : (forall i a, exists b, step i a = Some b) -> forall n i a, exists b, rounds n i step a = Some b.
Proof. intros H. induction n as [|n IH]; intros i a; cbn; [eauto|]. destruct (H i a) as (b & ->). apply IH. Qed.

Lemma run_same k vs vs' i0 ni j0 nj out out' i0' ni' j0' nj' out2 :
  forallb safe (k_body k) = true -> k_shape k <> Reduction -> Forall2 same_kind vs vs' -> 0 < ni -> 0 < nj ->
  run k (scalar_args (k_params k) vs) (tensor_args (k_params k) vs) i0 ni j0 nj out = Some out' ->
  exists out3, run k (scalar_args (k_params k) vs') (tensor_args (k_params k) vs') i0' ni' j0' nj' out2 = Some out3.
Proof.
  intros N Sh F Pi Pj R.
  assert (One : exists i j a b, round k (scalar_args (k_params k) vs) (tensor_args (k_params k) vs) i j a = Some b).
  { unfold run in R. destruct ni as [|ni]; [lia|]. destruct nj as [|nj]; [lia|]. destruct (k_shape k); [| |contradiction Sh; reflexivity]; cbn [rounds] in R.
    - destruct (round k _ _ i0 0 out) eqn:E; [|discriminate]. eauto.
    - destruct (round k _ _ i0 j0 out) eqn:E; [|discriminate]. eauto. }
  destruct One as (i & j & a & b & One).
  assert (All : forall i' j' a', exists b', round k (scalar_args (k_params k) vs') (tensor_args (k_params k) vs') i' j' a' = Some b').
  { intros i' j' a'. unfold round in *.
    assert (T : forall x, alike (fun _ _ => True) (tile_at k (tensor_args (k_params k) vs) i j x) (tile_at k (tensor_args (k_params k) vs') i' j' x)).
    { intros x. unfold tile_at. pose proof (tensor_args_same (k_params k) vs vs' F x) as T. destruct (tensor_args _ vs x), (tensor_args _ vs' x); cbn in *; auto. }
    pose proof (cexecs_same _ _ T (k_body k) [] _ _ (scalar_args_same (k_params k) vs vs' F) N) as E.
    destruct (cexecs _ [] (scalar_args (k_params k) vs) _) as [s|]; [|discriminate]. destruct (cexecs _ [] (scalar_args (k_params k) vs') _) as [s'|]; [|contradiction].
    specialize (E (k_result k)). unfold stored in *. destruct (s (k_result k)) as [(t & v)|]; [|discriminate]. destruct (s' (k_result k)) as [(t' & v')|]; [|contradiction]. destruct E as (E & V). cbn in E, V. subst t'.
    destruct v; try discriminate. destruct v'; try contradiction. destruct (dget stores (k_store k)) as [ts|]; [|discriminate]. destruct (dget (k_params k) (k_rv k)) as [[]|]; try discriminate. destruct (bt_eqb t ts); [eauto|discriminate]. }
  unfold run. destruct (k_shape k); [| |contradiction Sh; reflexivity]; apply rounds_some; intros; [apply All|apply rounds_some; intros; apply All].
Qed.
