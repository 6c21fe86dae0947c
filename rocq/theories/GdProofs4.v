(** Running the instructions for Gaudi: afterwards each of them holds as an equation. *)

From Coq Require Import String Ascii List ZArith Bool Lia QArith Qround.
From Verif Require Import Ast Dict SmtPrint UtilProofs NpModel GdModel GdSem GdProofs1 GdProofs2 GdProofs3.
Import ListNotations.
Local Open Scope nat_scope.
Local Open Scope string_scope.
Local Open Scope list_scope.

(** fields that are set stay as they are *)
Definition ole (a b : option lanes) : Prop := a = None \/ a = b.
Definition vle (v w : cval) : Prop :=
  match v, w with
  | V4 a b c d, V4 a' b' c' d' => ole a a' /\ ole b b' /\ ole c c' /\ ole d d'
  | _, _ => v = w
  end.
Definition grows (st st' : cst) : Prop := forall x t v, st x = Some (t, v) -> exists v', st' x = Some (t, v') /\ vle v v'.

Lemma ole_refl a : ole a a. Proof. right. reflexivity. Qed.
Lemma ole_trans a b c : ole a b -> ole b c -> ole a c. Proof. unfold ole. intros [->| ->]; auto. Qed.
Lemma vle_refl v : vle v v. Proof. destruct v; cbn; auto using ole_refl. Qed.
Lemma vle_trans u v w : vle u v -> vle v w -> vle u w.
Proof.
  destruct u as [| |a b c d|]; cbn; intros H; try (subst v; intros <-; reflexivity). destruct v as [| |a' b' c' d'|]; try discriminate.
  destruct w as [| |a'' b'' c'' d''|]; cbn; try discriminate. intuition eauto using ole_trans.
Qed.
Lemma vle_complete v w : complete v = true -> vle v w -> w = v.
Proof.
  destruct v as [| |a b c d|]; cbn; auto. destruct a, b, c, d; try discriminate. intros _. destruct w; try discriminate. unfold ole.
  intros ([?|<-] & [?|<-] & [?|<-] & [?|<-]); try discriminate. reflexivity.
Qed.
Lemma vle_field v w i l : vle v w -> field v i = Some l -> field w i = Some l.
Proof.
  destruct v as [| |a b c d|], w as [| |a' b' c' d'|]; try discriminate; cbn [vle]; try (intros [= <-]; auto; fail); try (intros [= <- <-]; auto; fail).
  unfold ole. intros (A & B & C & D) E. destruct i as [|[|[|[|[|i]]]]]; cbn in *; subst; intuition congruence.
Qed.
Lemma grows_refl st : grows st st. Proof. intros x t v E. exists v. auto using vle_refl. Qed.
Lemma grows_trans a b c : grows a b -> grows b c -> grows a c.
Proof. intros A B x t v E. destruct (A x t v E) as (v' & E' & L). destruct (B x t v' E') as (w & E'' & M). exists w. eauto using vle_trans. Qed.
Lemma grows_hide st st' x : grows st st' -> grows (chide st x) st'.
Proof. intros G y t v E. unfold chide in E. destruct (String.eqb x y); [discriminate|]. exact (G y t v E). Qed.
Lemma grows_set st x v : st x = None -> grows st (cset st x v).
Proof. intros N y t w E. unfold cset. destruct (String.eqb_spec x y) as [->|_]; [congruence|]. exists w. auto using vle_refl. Qed.

Section Exec.
  Variable tile : string -> option lanes.

  Lemma of_lanes_complete t v c : of_lanes t v = Some c -> complete c = true.
  Proof. destruct t; try discriminate; intros [= <-]; reflexivity. Qed.

  Lemma c_bin_complete op v w t c : c_bin op v w = Some (t, c) -> complete c = true.
  Proof.
    destruct v as (u & [q| | |]), w as (u' & [q'| | |]); destruct u; try discriminate; destruct u'; try discriminate; cbn; intros E;
      match type of E with option_map _ ?m = _ => destruct m end; cbn in E; try discriminate E; injection E as <- <-; reflexivity.
  Qed.
  Lemma ceval_complete st : forall e t v, ceval tile st e = Some (t, v) -> complete v = true.
  Proof.
    fix IH 1. intros [x|a|e i|op a b|f args|x i e] t v E; cbn [ceval] in E; try discriminate.
    - destruct (st x) as [(u, w)|]; [|discriminate]. destruct (complete w) eqn:C; [|discriminate]. injection E as <- <-. exact C.
    - destruct a; try discriminate. injection E as <- <-. reflexivity.
    - destruct e; try discriminate. destruct (st x) as [(u, w)|]; [|discriminate]. destruct (field_type u), (field w i); try discriminate. injection E as <- <-. reflexivity.
    - destruct (ceval tile st a) as [(u & w)|]; [|discriminate]. destruct (ceval tile st b) as [(u' & w')|]; [|discriminate].
      exact (c_bin_complete _ _ _ _ _ E).
    - destruct args as [|a [|b [|c [|e [|? ?]]]]]; try discriminate.
      + destruct (String.eqb f "v_reciprocal_fast_f32"); [|destruct (String.eqb f "v_i32_reduce_add"); [|discriminate]];
          (destruct (ceval tile st a) as [(u & w)|]; [|discriminate]; destruct u; try discriminate; destruct w; try discriminate; injection E as <- <-; reflexivity).
      + destruct (dget loads f) as [u|].
        { destruct a; try discriminate. destruct b; try discriminate. destruct (String.eqb x "inputCoord"); [|discriminate]. destruct (tile x0); cbn in E; [|discriminate]. injection E as <- <-. reflexivity. }
        destruct (dget vec2 f) as [((u & u') & g)|].
        { destruct (ceval tile st a) as [(ta & va)|]; [|discriminate]. destruct va; try discriminate. destruct (ceval tile st b) as [(tb & vb)|]; [|discriminate]. destruct vb; try discriminate.
          destruct (bt_eqb ta u && bt_eqb tb u); [|discriminate]. destruct (of_lanes u' _) eqn:O in E; cbn in E; [|discriminate]. injection E as <- <-. eapply of_lanes_complete, O. }
        destruct (dget vec_conv f) as [((u & u') & g)|]; [|discriminate].
        destruct (ceval tile st a) as [(ta & va)|]; [|discriminate]. destruct b; try discriminate. destruct (bt_eqb ta u); [|discriminate].
        destruct (all_lanes va); [|discriminate]. destruct (of_lanes u' _) eqn:O in E; cbn in E; [|discriminate]. injection E as <- <-. eapply of_lanes_complete, O.
      + destruct (dget vec_sel f) as [(u & g)|]; [|discriminate].
        destruct (ceval tile st a) as [(ta & va)|]; [|discriminate]. destruct va; try discriminate. destruct (ceval tile st b) as [(tb & vb)|]; [|discriminate]. destruct vb; try discriminate.
        destruct (ceval tile st c) as [(tc & vc)|]; [|discriminate]. destruct vc; try discriminate. destruct (ceval tile st e) as [(te & ve)|]; [|discriminate]. destruct ve; try discriminate.
        destruct (bt_eqb ta u && bt_eqb tb u && bt_eqb tc u && bt_eqb te u); [|discriminate]. injection E as <- <-. reflexivity.
  Qed.

  Lemma ceval_grows st st' : grows st st' -> forall e r, ceval tile st e = Some r -> ceval tile st' e = Some r.
  Proof.
    intros G. fix IH 1. intros [x|a|e i|op a b|f args|x i e] r E; cbn [ceval] in E |- *; try discriminate; auto.
    - destruct (st x) as [(u, w)|] eqn:S; [|discriminate]. destruct (complete w) eqn:C; [|discriminate]. destruct (G _ _ _ S) as (w' & -> & L).
      apply (vle_complete _ _ C) in L as ->. rewrite C. exact E.
    - destruct e; try discriminate. destruct (st x) as [(u, w)|] eqn:S; [|discriminate]. destruct (G _ _ _ S) as (w' & -> & L).
      destruct (field_type u); [|discriminate]. destruct (field w i) eqn:F; [|discriminate]. rewrite (vle_field _ _ _ _ L F). exact E.
    - destruct (ceval tile st a) as [v|] eqn:A; [|discriminate]. destruct (ceval tile st b) as [w|] eqn:B; [|discriminate]. rewrite (IH _ _ A), (IH _ _ B). exact E.
    - destruct args as [|a [|b [|c [|e [|? ?]]]]]; try discriminate.
      + destruct (String.eqb f "v_reciprocal_fast_f32"); [|destruct (String.eqb f "v_i32_reduce_add"); [|discriminate]];
          (destruct (ceval tile st a) as [v|] eqn:A; [|discriminate]; rewrite (IH _ _ A); exact E).
      + destruct (dget loads f) as [u|]; [exact E|]. destruct (dget vec2 f) as [((u & u') & g)|].
        { destruct (ceval tile st a) as [v|] eqn:A; [|discriminate]. rewrite (IH _ _ A). destruct v as (ta & va). destruct va; try discriminate.
          destruct (ceval tile st b) as [w|] eqn:B; [|discriminate]. rewrite (IH _ _ B). exact E. }
        destruct (dget vec_conv f) as [((u & u') & g)|]; [|discriminate].
        destruct (ceval tile st a) as [v|] eqn:A; [|discriminate]. rewrite (IH _ _ A). exact E.
      + destruct (dget vec_sel f) as [(u & g)|]; [|discriminate].
        destruct (ceval tile st a) as [(ta & va)|] eqn:A; [|discriminate]. destruct va; try discriminate.
        destruct (ceval tile st b) as [(tb & vb)|] eqn:B; [|discriminate]. destruct vb; try discriminate.
        destruct (ceval tile st c) as [(tc & vc)|] eqn:C; [|discriminate]. destruct vc; try discriminate.
        destruct (ceval tile st e) as [(te & ve)|] eqn:D; [|discriminate].
        rewrite (IH _ _ A), (IH _ _ B), (IH _ _ C), (IH _ _ D). exact E.
  Qed.

  (** the values of the operands *)
  Lemma ceval_id st x t v : ceval tile st (CId x) = Some (t, v) -> st x = Some (t, v) /\ complete v = true.
  Proof. cbn [ceval]. destruct (st x) as [(u & w)|]; [|discriminate]. destruct (complete w) eqn:C; [|discriminate]. intros [= <- <-]. auto. Qed.
  Lemma ceval_field st x i t v : ceval tile st (CField (CId x) i) = Some (t, v) -> exists u w l, st x = Some (u, w) /\ field_type u = Some t /\ field w i = Some l /\ v = Ve l.
  Proof.
    cbn [ceval]. destruct (st x) as [(u & w)|]; [|discriminate]. destruct (field_type u) eqn:F; [|discriminate]. destruct (field w i) eqn:L; [|discriminate].
    intros [= <- <-]. eauto 10.
  Qed.
  Lemma ceval_vec2 st f t u g a b r : dget loads f = None -> dget vec2 f = Some (t, u, g) -> ceval tile st (CApp f [a; b]) = Some r ->
    exists va vb w, ceval tile st a = Some (t, Ve va) /\ ceval tile st b = Some (t, Ve vb) /\ of_lanes u (fun k => g (va k) (vb k)) = Some w /\ r = (u, w).
  Proof.
    intros L V. cbn [ceval]. rewrite L, V. destruct (ceval tile st a) as [(ta & va)|]; [|discriminate]. destruct va as [|va| |]; try discriminate.
    destruct (ceval tile st b) as [(tb & vb)|]; [|discriminate]. destruct vb as [|vb| |]; try discriminate.
    destruct (bt_eqb ta t && bt_eqb tb t) eqn:B; [|discriminate]. apply andb_prop in B as (B1 & B2). apply bt_eqb_eq in B1, B2. subst.
    destruct (of_lanes u _) as [w|] eqn:O; [|discriminate]. intros [= <-]. eauto 10.
  Qed.
  Lemma ceval_conv st f t u g a sw r : dget loads f = None -> dget vec2 f = None -> dget vec_conv f = Some (t, u, g) -> ceval tile st (CApp f [a; CId sw]) = Some r ->
    exists va v w, ceval tile st a = Some (t, va) /\ all_lanes va = Some v /\ of_lanes u (fun k => g sw (v k)) = Some w /\ r = (u, w).
  Proof.
    intros L V C. cbn [ceval]. rewrite L, V, C. destruct (ceval tile st a) as [(ta & va)|]; [|discriminate].
    destruct (bt_eqb ta t) eqn:B; [|discriminate]. apply bt_eqb_eq in B as ->. destruct (all_lanes va) as [v|] eqn:A; [|discriminate].
    destruct (of_lanes u _) as [w|] eqn:O; [|discriminate]. intros [= <-]. eauto 10.
  Qed.
  Lemma ceval_sel st f t g a b c e r : dget vec_sel f = Some (t, g) -> ceval tile st (CApp f [a; b; c; e]) = Some r ->
    exists va vb vc ve, ceval tile st a = Some (t, Ve va) /\ ceval tile st b = Some (t, Ve vb) /\ ceval tile st c = Some (t, Ve vc) /\ ceval tile st e = Some (t, Ve ve) /\
      r = (t, Ve (fun k => if g (va k) (vb k) then vc k else ve k)).
  Proof.
    intros S. cbn [ceval]. rewrite S. destruct (ceval tile st a) as [(ta & va)|]; [|discriminate]. destruct va as [|va| |]; try discriminate.
    destruct (ceval tile st b) as [(tb & vb)|]; [|discriminate]. destruct vb as [|vb| |]; try discriminate.
    destruct (ceval tile st c) as [(tc & vc)|]; [|discriminate]. destruct vc as [|vc| |]; try discriminate.
    destruct (ceval tile st e) as [(te & ve)|]; [|discriminate]. destruct ve as [|ve| |]; try discriminate.
    destruct (bt_eqb ta t && bt_eqb tb t && bt_eqb tc t && bt_eqb te t) eqn:B; [|discriminate]. apply andb_prop in B as (B & B4). apply andb_prop in B as (B & B3). apply andb_prop in B as (B1 & B2).
    apply bt_eqb_eq in B1, B2, B3, B4. subst. intros [= <-]. eauto 12.
  Qed.
  Lemma ceval_recip st a r : ceval tile st (recip a) = Some r -> exists v, ceval tile st a = Some (FLOAT64, Ve v) /\ r = (FLOAT64, Ve (fun k => / v k)%Q).
  Proof.
    unfold recip. cbn [ceval]. change (String.eqb "v_reciprocal_fast_f32" "v_reciprocal_fast_f32") with true. cbn iota.
    destruct (ceval tile st a) as [(ta & va)|]; [|discriminate]. destruct ta; try discriminate. destruct va; try discriminate. intros [= <-]. eauto.
  Qed.
  Lemma ceval_load st f t x r : dget loads f = Some t -> ceval tile st (CApp f [CId "inputCoord"; CId x]) = Some r -> exists v, tile x = Some v /\ r = (t, Ve v).
  Proof.
    intros L. cbn [ceval]. rewrite L. change (String.eqb "inputCoord" "inputCoord") with true. cbn iota. destruct (tile x); [|discriminate]. intros [= <-]. eauto.
  Qed.
  Lemma sum_value st x u w : ceval tile st (sum_exp x) = Some (u, w) -> u = INT64 /\ st "sum" <> None.
  Proof.
    intros E. eapply ceval_vec2 in E as (va & vb & w' & _ & B & O & [= -> ->]); [|reflexivity|reflexivity]. split; [reflexivity|].
    apply ceval_id in B as (B & _). congruence.
  Qed.

  Lemma initial_complete t v w : complete (snd v) = true -> initial t v = Some w -> complete w = true.
  Proof.
    destruct v as (u & v). cbn. intros C E. destruct v; try (destruct (bt_eqb t u); [injection E as <-; exact C|discriminate]).
    destruct t; try discriminate; injection E as <-; reflexivity.
  Qed.

  (** the instruction as an equation in a state *)
  Definition holds (st : cst) (i : instr) : Prop :=
    match i_dest i, i_type i, i_exp i with
    | Some x, Some t, Some e => exists v w, ceval tile st e = Some v /\ initial t v = Some w /\ st x = Some (t, w)
    | Some x, Some t, None => exists v, st x = Some (t, v)
    | None, None, Some (CSet x n e) => exists t v u w, st x = Some (t, v) /\ ceval tile st e = Some (u, Ve w) /\ field_type t = Some u /\ field v n = Some w
    | _, _, _ => True
    end.
  Lemma holds_grows st st' i : grows st st' -> holds st i -> holds st' i.
  Proof.
    intros G. unfold holds. destruct (i_dest i) as [x|], (i_type i) as [t|], (i_exp i) as [e|]; auto.
    - intros (v & w & E & N & S). exists v, w. split; [exact (ceval_grows _ _ G _ _ E)|]. split; [exact N|].
      destruct (G _ _ _ S) as (w' & -> & L). apply vle_complete in L; [subst; reflexivity|]. eapply initial_complete; [|exact N]. destruct v as (u & v). exact (ceval_complete _ _ _ _ E).
    - intros (v & S). destruct (G _ _ _ S) as (w' & S' & L). eauto.
    - destruct e; auto. intros (t & v & u & w & S & E & F & D). destruct (G _ _ _ S) as (v' & S' & L). exists t, v', u, w.
      split; [exact S'|]. split; [exact (ceval_grows _ _ G _ _ E)|]. split; [exact F|exact (vle_field _ _ _ _ L D)].
  Qed.

  Lemma set_field_inv v n w v' : set_field v n w = Some v' -> field v n = None ->
    vle v v' /\ field v' n = Some w /\ forall m, m <> n -> field v' m = field v m.
  Proof.
    destruct v as [| |a b c d|]; try discriminate. unfold ole. destruct n as [|[|[|[|[|n]]]]]; try discriminate; cbn; intros [= <-] ->; cbn; unfold ole;
      (split; [auto 10|split; [reflexivity|]]); intros [|[|[|[|[|m]]]]] N; congruence || reflexivity.
  Qed.

  Section Log.
    Variable log : list instr.
    Hypothesis G : good log.
    Definition ready (st : cst) (l : list instr) : Prop :=
      (forall j x, In j l -> key j = Some (x, 0) -> st x = None) /\
      (forall j x n t v, In j l -> key j = Some (x, S n) -> st x = Some (t, v) -> field v (S n) = None) /\
      (forall t v, st "sum" = Some (t, v) -> t <> INT64).

    Lemma keys_in l j k : In j l -> key j = Some k -> In k (keys l).
    Proof. intros J K. apply in_flat_map. exists j. rewrite K. cbn. auto. Qed.
    Lemma key_fresh j x k : In j log -> key j = Some (x, k) -> x <> "sum".
    Proof.
      intros J K. apply In_nth_error in J as (n & J). apply G in J. destruct J; cbn in K; try discriminate K; injection K as <- <-; discriminate.
    Qed.

    Lemma execs_holds l : forall seen st stf, incl l log -> NoDup (keys l) -> ready st l -> cexecs tile seen st l = Some stf -> grows st stf /\ Forall (holds stf) l.
    Proof.
      induction l as [|j l IH]; intros seen st stf I N (R0 & R1 & R2) E.
      { injection E as <-. split; [apply grows_refl|constructor]. }
      assert (Ij : In j log) by (apply I; cbn; auto). assert (Il : incl l log) by (intros a A; apply I; cbn; auto).
      cbn [cexecs] in E. destruct (cexec tile seen st j) as [(seen' & st')|] eqn:X; [|discriminate].
      assert (Step : NoDup (keys l) /\ ready st' l /\ grows st st' /\ holds st' j).
      { pose proof Ij as F. apply In_nth_error in F as (n & F). apply G in F. destruct F as [t e| |x|m k e K1 K2 K3].
        - (* a variable with its value *)
          cbn in N. inversion N as [|? ? Nj Nl]; subst. unfold cexec in X. cbn [let_ i_dest i_type i_exp] in X.
          destruct (smem (fresh n) seen); [discriminate|]. destruct (ceval tile (chide st (fresh n)) e) as [v|] eqn:V; [|discriminate]. destruct (initial t v) as [w|] eqn:W; [|discriminate].
          injection X as <- <-. assert (Gr : grows st (cset st (fresh n) (t, w))). { apply grows_set, (R0 (let_ n t e)); cbn; auto. }
          split; [exact Nl|]. split; [|split; [exact Gr|]].
          + split; [|split].
            * intros j' x J K. unfold cset. destruct (String.eqb_spec (fresh n) x) as [<-|D]; [|apply (R0 j'); cbn; auto]. destruct Nj. eapply keys_in; eauto.
            * intros j' x i t' v' J K S. unfold cset in S. destruct (String.eqb_spec (fresh n) x) as [<-|D]; [|apply (R1 j' x i t' v'); cbn; auto].
              exfalso. pose proof (Il _ J) as J'. apply In_nth_error in J' as (n' & J'). apply G in J'. destruct J' as [| | |m k e' A1 A2 A3]; cbn in K; try discriminate K.
              injection K as Ex Ek. assert (Em : m = n) by (apply string_of_nat_inj; exact Ex). subst m. apply nth_error_In in A3.
              pose proof (same_key log G _ _ (fresh n, 0) Ij A3 eq_refl eq_refl) as Bad. discriminate Bad.
            * intros t' v' S. unfold cset in S. destruct (String.eqb_spec (fresh n) "sum"); [discriminate e0|]. eapply R2; eauto.
          + exists v, w. split; [|split; [exact W|unfold cset; cbn; rewrite String.eqb_refl; reflexivity]].
            apply (ceval_grows (chide st (fresh n))); [apply grows_hide, Gr|exact V].
        - cbn in N. inversion N as [|? ? Nj Nl]; subst. unfold cexec in X. cbn [decl_ i_dest i_type i_exp] in X. destruct (smem (fresh n) seen); [discriminate|]. injection X as <- <-.
          assert (Gr : grows st (cset st (fresh n) (FLOAT256, V4 None None None None))). { apply grows_set, (R0 (decl_ n)); cbn; auto. }
          split; [exact Nl|]. split; [|split; [exact Gr|]].
          + split; [|split].
            * intros j' x J K. unfold cset. destruct (String.eqb_spec (fresh n) x) as [<-|D]; [|apply (R0 j'); cbn; auto]. destruct Nj. eapply keys_in; eauto.
            * intros j' x i t' v' J K S. unfold cset in S. destruct (String.eqb_spec (fresh n) x) as [<-|D]; [|apply (R1 j' x i t' v'); cbn; auto].
              injection S as <- <-. destruct i as [|[|[|[|i]]]]; reflexivity.
            * intros t' v' S. unfold cset in S. destruct (String.eqb_spec (fresh n) "sum"); [discriminate e|]. eapply R2; eauto.
          + exists (V4 None None None None). unfold cset. rewrite String.eqb_refl. reflexivity.
        - (* the accumulator: never *)
          exfalso. unfold cexec in X. cbn [i_dest i_type i_exp] in X. destruct (st "sum") as [(t & v)|] eqn:S; [|discriminate].
          destruct (ceval tile st (sum_exp x)) as [(u & w)|] eqn:C; [|discriminate]. destruct (bt_eqb t u) eqn:B; [|discriminate]. apply bt_eqb_eq in B as ->.
          apply (R2 _ _ eq_refl). apply (sum_value _ _ _ _ C).
        - destruct k as [|k]; [lia|]. cbn in N. inversion N as [|? ? Nj Nl]; subst. unfold cexec in X. cbn [set_ i_dest i_type i_exp] in X.
          destruct (st (fresh m)) as [(t & v)|] eqn:Sm; [|discriminate]. destruct (ceval tile st e) as [(u & w)|] eqn:V; [|discriminate]. destruct w as [|w| |]; try discriminate.
          destruct (field_type t) as [t'|] eqn:T; [|discriminate]. destruct (bt_eqb t' u) eqn:B; [|discriminate]. apply bt_eqb_eq in B as ->.
          destruct (set_field v (S k) w) as [v'|] eqn:F; [|discriminate]. injection X as <- <-.
          destruct (set_field_inv _ _ _ _ F) as (Vl & Fv & Fo). { apply (R1 (set_ m (S k) e) (fresh m) k t v); cbn; auto. }
          assert (Gr : grows st (cset st (fresh m) (t, v'))).
          { intros y t' w' E'. unfold cset. destruct (String.eqb_spec (fresh m) y) as [<-|D]; [|exists w'; auto using vle_refl]. rewrite Sm in E'. injection E' as <- <-. exists v'. auto. }
          split; [exact Nl|]. split; [|split; [exact Gr|]].
          + split; [|split].
            * intros j' x J K. unfold cset. destruct (String.eqb_spec (fresh m) x) as [<-|D]; [|apply (R0 j'); cbn; auto].
              specialize (R0 j' (fresh m) (or_intror J) K). congruence.
            * intros j' x i t' w' J K S'. unfold cset in S'. destruct (String.eqb_spec (fresh m) x) as [<-|D]; [|apply (R1 j' x i t' w'); cbn; auto].
              injection S' as <- <-. rewrite Fo; [apply (R1 j' (fresh m) i t v); cbn; auto|]. intros [= ->]. apply Nj. eapply keys_in; eauto.
            * intros t' w' S'. unfold cset in S'. destruct (String.eqb_spec (fresh m) "sum"); [discriminate e0|]. eapply R2; eauto.
          + exists t, v', u, w. split; [unfold cset; rewrite String.eqb_refl; reflexivity|]. split; [exact (ceval_grows _ _ Gr _ _ V)|]. auto. }
      destruct Step as (Nl & Rl & Gr & Hj). destruct (IH seen' st' stf Il Nl Rl E) as (Gl & Fl). split; [exact (grows_trans _ _ _ Gr Gl)|].
      constructor; [exact (holds_grows _ _ _ Gl Hj)|exact Fl].
    Qed.
  End Log.
End Exec.
