(** Proofs about SygRead.v. *)

From Coq Require Import DecimalString.
From Coq Require Import String Ascii List ZArith Bool Lia.
From Verif Require Import Ast Semantics Dict IrProofs UtilProofs SynthModel SexpModel SexpProofs SmtPrint SmtText SmtPrintProofs SmtDecode SmtMeaning RosPrint RosProofs SygRead SygText.
Import ListNotations.
Local Open Scope string_scope.
Local Open Scope list_scope.

Fixpoint ssize (s : sexp) : nat := match s with SA _ => 1 | SL l => S (list_sum (map ssize l)) end.

Lemma in_size s l : In s l -> ssize s <= list_sum (map ssize l).
Proof. induction l as [|x l IH]; [intros []|]. cbn [map list_sum fold_right]. unfold list_sum in *. cbn. intros [<-|I0]; [lia|]. specialize (IH I0). lia. Qed.

Section Value.
  Variable fn : string -> bool.
  Variables F V : dict ty.
  Variable I : interp.
  Variable J : string -> list val -> option val.
  Hypothesis A : same_functions fn I J.
  Hypothesis NF : fun_names fn F.
  Hypothesis NV : var_names fn V.
  Variable r : env.                     (* the values of the variables *)

  (** the values of the variables and of the names bound by [let] *)
  Definition bound (L : dict expr) (r' : env) : Prop :=
    vars_only fn r' /\
    forall x, match dget L x with Some e => exists v, r' x = Some v /\ eval I r e = Some v | None => r' x = r x end.

  Lemma bound_set L r' x e v : bound L r' -> var_name x = true -> fn x = false -> eval I r e = Some v -> bound (dset L x e) (upd r' x v).
  Proof.
    intros [B1 B2] X Fx E. split; [apply vars_upd; assumption|]. intros y. rewrite dget_dset. unfold upd.
    rewrite String.eqb_sym. destruct (String.eqb_spec x y) as [<-|N]; [eauto|]. apply B2.
  Qed.

  Definition good (s : sexp) : Prop := forall L r' e v, term fn s = true -> bound L r' ->
    syg_expr F V L s = Ok e -> sval I J r' s = Some v -> eval I r e = Some v.

  Lemma good_list l L r' es vs : Forall good l -> forallb (term fn) l = true -> bound L r' ->
    first_res (List.length (map (syg_expr F V L) l)) (map (syg_expr F V L) l) = Ok es -> mapO (sval I J r') l = Some vs -> mapO (eval I r) es = Some vs.
  Proof.
    intros G. revert es vs. induction G as [|s l Gs G IH]; intros es vs T B E M.
    - injection E as <-. exact M.
    - cbn [forallb] in T. apply andb_true_iff in T. destruct T as [T1 T2]. cbn [map List.length first_res] in E. cbn [mapO] in M.
      destruct (syg_expr F V L s) as [e|] eqn:Es; [|discriminate E]. cbn [bindR] in E.
      destruct (first_res (List.length (map (syg_expr F V L) l)) (map (syg_expr F V L) l)) as [es'|] eqn:El; [|discriminate E]. injection E as <-.
      destruct (sval I J r' s) as [v|] eqn:Vs; [|discriminate M]. destruct (mapO (sval I J r') l) as [vs'|]; [|discriminate M]. injection M as <-.
      cbn [mapO]. rewrite (Gs L r' e v T1 B Es Vs), (IH es' vs' T2 B eq_refl eq_refl). reflexivity.
  Qed.

  Lemma syg_op_kind h mk : syg_op h = Some mk ->
    exists k, op_kind h = Some k /\ String.eqb h "let" = false /\ String.eqb h "as" = false /\ String.eqb h "ite" = false /\ pre "tuple" h = false /\ pre "set." h = false /\ String.eqb h "set.singleton" = false /\
      forall es e, mk es = Ok e -> exists t, e = Node k t es /\ (k = KAdd \/ k = KSub \/ k = KMul \/ k = KEq \/ k = KLt \/ k = KLe \/ k = KGt \/ k = KGe \/ k = KAnd \/ k = KOr \/ k = KImplies) /\ (h = "-" -> k = KSub).
  Proof.
    unfold syg_op. intros E.
    assert (R : forall k es e, is_op k = true -> rebuild k TInt es = Ok e -> exists t, e = Node k t es) by (intros k es e O H; exact (rebuild_op k TInt es e O H)).
    cbn [find fst] in E.
    repeat match type of E with context [String.eqb h ?w] => destruct (String.eqb_spec h w) as [-> |]; cbn [snd] in E; [injection E as <-|] end; [..|discriminate E].
    all: eexists; split; [reflexivity|]; repeat (split; [reflexivity|]); intros es e H.
    all: match goal with H : _ = Ok ?e |- exists t, ?e = Node ?k t ?es /\ _ => destruct (R k es e eq_refl H) as [t ->] end; exists t; split; [reflexivity|]; split; [tauto|]; first [reflexivity|discriminate].
  Qed.

  Lemma op_apply_some k vs v : op_apply I k vs = Some v -> List.length vs = 2 -> op_val I k vs = Some v.
  Proof. destruct vs as [|a [|b [|]]]; cbn; try discriminate. intros H _. destruct k; cbn in H |- *; try discriminate H; try exact H; destruct a; exact H. Qed.

  Lemma node_eval k t l : (k = KAdd \/ k = KSub \/ k = KMul \/ k = KEq \/ k = KLt \/ k = KLe \/ k = KGt \/ k = KGe \/ k = KAnd \/ k = KOr \/ k = KImplies) ->
    eval I r (Node k t l) = match mapO (eval I r) l with Some vs => op_val I k vs | None => None end.
  Proof. intros H. repeat destruct H as [-> |H]; try subst k; reflexivity. Qed.

  Lemma set_fun r' h l : vars_only fn r' -> pre "set." h = true -> sval I J r' (SL (SA h :: l)) = match mapO (sval I J r') l with Some vs => J h vs | None => None end.
  Proof.
    intros VO P. assert (X : exists s, h = ("set." ++ s)%string) by (exists (skip 4 h); exact (prefix_split "set." h P)).
    destruct X as [s ->].
    assert (O : op_kind ("set." ++ s) = None) by reflexivity.
    rewrite sval_head by reflexivity. rewrite O. rewrite (not_var fn r' _ VO (or_introl (not_var_set s))). reflexivity.
  Qed.

  Lemma set_val f g a b va vb v t : In (f, g) set_ops -> eval I r a = Some va -> eval I r b = Some vb -> J f [va; vb] = Some v ->
    eval I r (Node KCall t [Atom (PStr g); a; b]) = Some v.
  Proof.
    intros S0 Ea Eb Ev. cbn [eval mapO]. rewrite Ea, Eb. rewrite <- (sf_set fn I J A f g); [exact Ev|]. right. exact S0.
  Qed.

  Theorem good_all : forall n s, ssize s < n -> good s.
  Proof.
    induction n as [|n IH]; intros s N; [lia|].
    destruct s as [w|[|[h|] l]].
    - (* a word *)
      intros L r' e v _ [VO B] E S0. cbn [syg_expr] in E. unfold syg_atom in E. cbn [sval] in S0.
      change (number w) with (numeral w) in E. destruct (numeral w) as [z|]; [injection E as <-; exact S0|].
      destruct (String.eqb_spec w "false") as [-> |]; [injection E as <-; exact S0|].
      destruct (String.eqb_spec w "true") as [-> |]; [injection E as <-; exact S0|].
      specialize (B w). destruct (dget L w) as [e'|].
      + injection E as <-. destruct B as [v' [B1 B2]]. rewrite B1 in S0. injection S0 as <-. exact B2.
      + destruct (dget V w) as [t|] eqn:D; [|discriminate E]. injection E as <-. destruct (NV w t D) as [X1 X2].
        cbn [mkVar eval]. rewrite B in S0. destruct (r w); [exact S0|]. rewrite (sf_var fn I J A w [] X1 X2) in S0. discriminate S0.
    - intros L r' e v T. discriminate T.
    - (* a list *)
      assert (G : Forall good l).
      { apply Forall_forall. intros x Ix. apply IH. pose proof (in_size x l Ix). cbn [ssize map] in N. unfold list_sum in *. cbn in N. lia. }
      intros L r' e v T B E S0. cbn [syg_expr] in E.
      destruct (syg_op h) as [mk|] eqn:O.
      { destruct (syg_op_kind h mk O) as [k [K [N1 [N2 [N3 [N4 [N5 [N6 MK]]]]]]]].
        cbn [term] in T. rewrite N1, N2, N4, N6, N5 in T.
        rewrite sval_head, K in S0 by assumption.
        destruct l as [|a [|b [|]]]; cbn [map] in E; try discriminate E.
        - destruct (String.eqb_spec h "-") as [-> |]; [|discriminate E].
          destruct (syg_expr F V L a) as [ea|] eqn:Ea; [|discriminate E]. cbn [bindR] in E.
          destruct (MK _ _ E) as [t [-> [Kk Km]]]. specialize (Km eq_refl). subst k.
          cbn [mapO] in S0. destruct (sval I J r' a) as [va|] eqn:Va; [|discriminate S0]. cbn [forallb] in T. rewrite andb_true_r in T.
          inversion G as [|? ? Ga _]; subst. pose proof (Ga L r' ea va T B Ea Va) as Xa.
          rewrite node_eval by tauto. cbn [mapO eval IntLit mkLit lit_val]. rewrite Xa.
          destruct va; cbn in S0; try discriminate S0. exact S0.
        - destruct (syg_expr F V L a) as [ea|] eqn:Ea; [|discriminate E]. cbn [bindR] in E.
          destruct (syg_expr F V L b) as [eb|] eqn:Eb; [|discriminate E]. cbn [bindR] in E.
          destruct (MK _ _ E) as [t [-> [Kk _]]]. rewrite node_eval by exact Kk.
          cbn [forallb] in T. rewrite andb_true_r in T. apply andb_true_iff in T. destruct T as [Ta Tb].
          inversion G as [|? ? Ga G']; subst. inversion G' as [|? ? Gb _]; subst.
          cbn [mapO] in S0 |- *. destruct (sval I J r' a) as [va|] eqn:Va; [|discriminate S0]. destruct (sval I J r' b) as [vb|] eqn:Vb; [|discriminate S0].
          rewrite (Ga L r' ea va Ta B Ea Va), (Gb L r' eb vb Tb B Eb Vb). apply op_apply_some; [exact S0|reflexivity]. }
      destruct (String.eqb_spec h "not") as [-> |Nnot].
      { cbn [term] in T. change (forallb (term fn) l = true) in T.
        rewrite sval_head in S0 by reflexivity. change (op_kind "not") with (Some KNot) in S0.
        destruct (mapO (sval I J r') l) as [vs|] eqn:M; [|discriminate S0]. destruct vs as [|[|b0| | |] [|]]; cbn in S0; try discriminate S0.
        destruct l as [|a [|a' l]]; cbn [mapO] in M; try discriminate M.
        - destruct (sval I J r' a) as [va|] eqn:Va; [|discriminate M]. injection M as ->. cbn [map nth_res nth_error] in E. unfold nth_res in E. cbn [nth_error] in E.
          destruct (syg_expr F V L a) as [ea|] eqn:Ea; [|discriminate E]. cbn [bindR] in E. inversion G as [|? ? Ga _]; subst. cbn [forallb] in T. rewrite andb_true_r in T.
          pose proof (Ga L r' ea _ T B Ea Va) as Xa. destruct (rebuild_op KNot TInt [ea] e eq_refl E) as [t ->]. cbn [eval mapO]. rewrite Xa. exact S0.
        - destruct (sval I J r' a); [|discriminate M]. destruct (sval I J r' a'); [|discriminate M]. destruct (mapO _ l); discriminate M. }
      destruct (dget F h) as [tf|] eqn:DF.
      { destruct (NF h tf DF) as [Fh Sh]. destruct (symbol_inv h Sh) as [Wh [_ [_ [_ [L1 [L2 [Oh _]]]]]]].
        assert (N7 : String.eqb h "ite" = false) by (destruct (String.eqb_spec h "ite") as [-> |]; [discriminate Oh|reflexivity]).
        assert (P : pre "tuple" h = false /\ pre "set." h = false).
        { unfold symbol in Sh. apply andb_true_iff in Sh. destruct Sh as [_ Sh]. apply negb_true_iff, orb_false_iff in Sh. destruct Sh as [Sh S2]. apply orb_false_iff in Sh. tauto. }
        destruct P as [P1 P2].
        assert (P3 : String.eqb h "set.singleton" = false) by (destruct (String.eqb_spec h "set.singleton") as [-> |]; [discriminate P2|reflexivity]).
        cbn [term] in T. rewrite L1, L2, P1, P3, P2 in T.
        destruct (fn_return_type tf) as [rt|]; [|discriminate E]. cbn [bindR] in E.
        destruct (first_res _ _) as [es|] eqn:Es in E; [|discriminate E]. cbn [bindR] in E. unfold mkCall in E. injection E as <-.
        rewrite sval_head, Oh in S0 by assumption. destruct (mapO (sval I J r') l) as [vs|] eqn:M; [|discriminate S0].
        rewrite (not_var fn r' h (proj1 B) (or_intror Fh)) in S0. rewrite (sf_fun fn I J A h vs Fh Sh) in S0.
        cbn [eval]. rewrite (good_list l L r' es vs G T B Es M). exact S0. }
      destruct (String.eqb_spec h "let") as [-> |Nlet].
      { cbn [term String.eqb Ascii.eqb Bool.eqb] in T.
        destruct l as [|[|[|[|[|[x|] [|a [|]]]] [|]]] [|b [|]]]; try discriminate T.
        apply andb_true_iff in T. destruct T as [T Tb]. apply andb_true_iff in T. destruct T as [T Ta]. apply andb_true_iff in T. destruct T as [Vx Fx]. apply negb_true_iff in Fx.
        destruct (syg_expr F V L a) as [ea|] eqn:Ea; [|discriminate E]. cbn [bindR] in E.
        cbn [sval String.eqb Ascii.eqb Bool.eqb] in S0. destruct (sval I J r' a) as [va|] eqn:Va; [|discriminate S0]. cbn [bind fold_right fst snd] in S0.
        assert (Ga : good a) by (apply IH; cbn in N; lia). assert (Gb : good b) by (apply IH; cbn in N; lia).
        pose proof (Ga L r' ea va Ta B Ea Va) as Xa.
        exact (Gb _ _ e v Tb (bound_set L r' x ea va B Vx Fx Xa) E S0). }
      destruct (String.eqb_spec h "ite") as [-> |Nite].
      { cbn [term] in T. change (forallb (term fn) l = true) in T.
        destruct l as [|c [|a [|b [|]]]]; try discriminate S0. unfold nth_res in E. cbn [map nth_error] in E.
        destruct (syg_expr F V L c) as [ec|] eqn:Ec; [|discriminate E]. cbn [bindR] in E.
        destruct (syg_expr F V L a) as [ea|] eqn:Ea; [|discriminate E]. cbn [bindR] in E.
        destruct (syg_expr F V L b) as [eb|] eqn:Eb; [|discriminate E]. cbn [bindR] in E.
        destruct (rebuild_op KIte TInt _ e eq_refl E) as [t ->].
        cbn [forallb] in T. rewrite andb_true_r in T. apply andb_true_iff in T. destruct T as [Tc T]. apply andb_true_iff in T. destruct T as [Ta Tb].
        inversion G as [|? ? Gc G1]; subst. inversion G1 as [|? ? Ga G2]; subst. inversion G2 as [|? ? Gb _]; subst.
        cbn [sval String.eqb Ascii.eqb Bool.eqb] in S0. destruct (sval I J r' c) as [vc|] eqn:Vc; [|discriminate S0].
        cbn [eval]. rewrite (Gc L r' ec vc Tc B Ec Vc). destruct vc as [|[]| | |]; try discriminate S0.
        - exact (Ga L r' ea v Ta B Ea S0).
        - exact (Gb L r' eb v Tb B Eb S0). }
      cbn [term] in T. rewrite (proj2 (String.eqb_neq _ _) Nlet) in T.
      change (starts "tuple" h) with (pre "tuple" h) in E.
      destruct (pre "tuple" h) eqn:PT.
      { assert (Nas : String.eqb h "as" = false) by (destruct (String.eqb_spec h "as") as [-> |]; [discriminate PT|reflexivity]).
        rewrite Nas in T. apply andb_true_iff in T. destruct T as [Th T]. apply String.eqb_eq in Th.
        destruct (contains "_get" h); [discriminate E|].
        destruct (first_res _ _) as [es|] eqn:Es in E; [|discriminate E]. cbn [bindR] in E.
        destruct (mapR type_of es) as [ts|]; [|discriminate E]. cbn [bindR] in E. destruct ts as [|t1 [|t2 ts]]; try discriminate E. injection E as <-.
        rewrite sval_head in S0 by (subst h; try reflexivity).
        destruct (mapO (sval I J r') l) as [vs|] eqn:M; [|discriminate S0].
        assert (Oh : op_kind h = None) by (subst h; reflexivity). rewrite Oh in S0.
        assert (Rh : r' h = None) by (subst h; apply (not_var fn r' _ (proj1 B)); left; apply not_var_tuple). rewrite Rh in S0.
        cbn [eval]. rewrite (good_list l L r' es vs G T B Es M).
        rewrite Th, (sf_tuple fn I J A) in S0. exact S0. }
      destruct (String.eqb_spec h "as") as [-> |Nas].
      { destruct l as [|[w|] [|o [|]]]; try discriminate T. apply String.eqb_eq in T. subst w.
        cbn [andb String.eqb Ascii.eqb Bool.eqb] in E. injection E as <-.
        change (J "set.empty" [] = Some v) in S0. cbn [eval mapO]. rewrite <- (sf_empty fn I J A). exact S0. }
      cbn [andb] in E.
      destruct (String.eqb_spec h "set.singleton") as [-> |Ns].
      { destruct l as [|a [|]]; try discriminate T. unfold nth_res in E. cbn [map nth_error] in E.
        destruct (syg_expr F V L a) as [ea|] eqn:Ea; [|discriminate E]. cbn [bindR] in E. destruct (type_of ea) as [t|]; [|discriminate E]. cbn [bindR] in E. injection E as <-.
        rewrite (set_fun r' "set.singleton" [a] (proj1 B) eq_refl) in S0. cbn [mapO] in S0. destruct (sval I J r' a) as [va|] eqn:Va; [|discriminate S0].
        inversion G as [|? ? Ga _]; subst. cbn [eval mapO]. rewrite (Ga L r' ea va T B Ea Va).
        rewrite <- (sf_set fn I J A "set.singleton" "set-singleton"); [exact S0|left; reflexivity]. }
      destruct (smem h set_heads) eqn:SH; [|discriminate E].
      assert (PS : pre "set." h = true).
      { apply smem_in in SH. cbn [set_heads In] in SH. repeat destruct SH as [<- | SH]; try reflexivity. destruct SH. }
      rewrite PS in T. destruct l as [|a [|b [|]]]; try discriminate T. apply andb_true_iff in T. destruct T as [Ta Tb].
      unfold nth_res in E. cbn [map nth_error] in E.
      destruct (syg_expr F V L a) as [ea|] eqn:Ea; [|discriminate E]. cbn [bindR] in E.
      destruct (syg_expr F V L b) as [eb|] eqn:Eb; [|discriminate E]. cbn [bindR] in E.
      inversion G as [|? ? Ga G1]; subst. inversion G1 as [|? ? Gb _]; subst.
      rewrite (set_fun r' h [a; b] (proj1 B) PS) in S0. cbn [mapO] in S0.
      destruct (sval I J r' a) as [va|] eqn:Va; [|discriminate S0]. destruct (sval I J r' b) as [vb|] eqn:Vb; [|discriminate S0].
      pose proof (Ga L r' ea va Ta B Ea Va) as Xa. pose proof (Gb L r' eb vb Tb B Eb Vb) as Xb.
      unfold syg_set in E.
      destruct (String.eqb_spec h "set.insert") as [-> |].
      { destruct (type_of ea) as [t|]; [|discriminate E]. injection E as <-. apply (set_val "set.insert" "set-insert" ea eb va vb); auto. cbn; tauto. }
      destruct (String.eqb_spec h "set.eq") as [-> |].
      { injection E as <-. rewrite (sf_eq fn I J A) in S0. cbn [eval mapO]. rewrite Xa, Xb. exact S0. }
      destruct (String.eqb_spec h "set.union") as [-> |].
      { destruct (type_of ea) as [t|]; [|discriminate E]. injection E as <-. apply (set_val "set.union" "set-union" ea eb va vb); auto. cbn; tauto. }
      destruct (String.eqb_spec h "set.minus") as [-> |].
      { destruct (type_of ea) as [t|]; [|discriminate E]. injection E as <-. apply (set_val "set.minus" "set-minus" ea eb va vb); auto. cbn; tauto. }
      destruct (String.eqb_spec h "set.subset") as [-> |].
      { injection E as <-. apply (set_val "set.subset" "set-subset" ea eb va vb); auto. cbn; tauto. }
      assert (h = "set.member") as ->.
      { apply smem_in in SH. cbn [set_heads In] in SH. repeat destruct SH as [<- | SH]; try congruence. destruct SH. }
      injection E as <-. apply (set_val "set.member" "set-member" ea eb va vb); auto. cbn; tauto.
    - intros L r' e v T. discriminate T.
  Qed.
End Value.

(** ** every well-sorted term is read *)
Section Sorts.
  Variable F V : dict ty.

  Definition typed (G : dict ty) (L : dict expr) : Prop :=
    forall x t, dget G x = Some t -> match dget L x with Some e => type_of e = Ok t | None => dget V x = Some t end.

  Lemma typed_set G L x e t : typed G L -> type_of e = Ok t -> typed (dset G x t) (dset L x e).
  Proof.
    intros H E y u. rewrite !dget_dset. destruct (String.eqb y x); [|apply H]. intros X. injection X as <-. exact E.
  Qed.

  Definition reads_to (G : dict ty) (s : sexp) (t : ty) : Prop :=
    forall L, typed G L -> exists e, syg_expr F V L s = Ok e /\ type_of e = Ok t.
  Definition reads_all (G : dict ty) (l : list sexp) (ts : list ty) : Prop :=
    forall L, typed G L -> exists es, first_res (List.length (map (syg_expr F V L) l)) (map (syg_expr F V L) l) = Ok es.

  Lemma bin_read h mk G a b ta tb tr : syg_op h = Some mk -> reads_to G a ta -> reads_to G b tb ->
    (forall ea eb, type_of ea = Ok ta -> type_of eb = Ok tb -> exists e, mk [ea; eb] = Ok e /\ type_of e = Ok tr) -> reads_to G (SL [SA h; a; b]) tr.
  Proof.
    intros O A B M L T. destruct (A L T) as [ea [Ea Ta]]. destruct (B L T) as [eb [Eb Tb]]. destruct (M ea eb Ta Tb) as [e [E Te]].
    exists e. cbn [syg_expr map]. rewrite O, Ea, Eb. cbn [bindR]. split; assumption.
  Qed.
  Lemma tyeq t : ty_eqb t t = true.
  Proof. apply ty_eqb_eq. reflexivity. Qed.

  Theorem sorted_read G s t : fun_names (fun _ => true) F -> sorted F G s t -> reads_to G s t.
  Proof.
    intros NF. revert G s t. apply (sorted_mut F reads_to reads_all).
    - intros G w z H L T. exists (IntLit z). split; [|reflexivity]. cbn [syg_expr]. unfold syg_atom. change (number w) with (numeral w). rewrite H. reflexivity.
    - intros G w [<-|[<-|[]]] L T; eexists; split; reflexivity.
    - intros G x t S0 D L T. destruct (symbol_inv x S0) as [_ [_ [X1 [X2 _]]]]. specialize (T x t D). cbn [syg_expr]. unfold syg_atom.
      change (number x) with (numeral x). rewrite (numeral_symbol x S0), X1, X2. destruct (dget L x) as [e|]; [eauto|]. rewrite T. eexists; split; reflexivity.
    - intros G f a b I0 _ A _ B. cbn [In] in I0.
      assert (M : exists mk, syg_op f = Some mk /\ forall ea eb, type_of ea = Ok TInt -> type_of eb = Ok TInt -> exists e, mk [ea; eb] = Ok e /\ type_of e = Ok TInt).
      { destruct I0 as [<-|[<-|[<-|[]]]]; eexists; (split; [reflexivity|]); intros ea eb Ta Tb; eexists;
          (split; [cbn [snd]; unfold mkArithN, mkArith2; cbn [check_types]; rewrite Ta, Tb; reflexivity|reflexivity]). }
      destruct M as [mk [O M]]. exact (bin_read f mk G a b _ _ _ O A B M).
    - intros G a _ A L T. destruct (A L T) as [ea [Ea Ta]]. exists (Node KSub TInt [IntLit 0; ea]). split; [|reflexivity].
      change (syg_expr F V L (SL [SA "-"; a])) with (a <- syg_expr F V L a ;; mkArith2 KSub [IntLit 0; a]). rewrite Ea. cbn [bindR].
      unfold mkArith2. cbn [check_types]. cbn [type_of bindR IntLit mkLit]. rewrite Ta. reflexivity.
    - intros G f a b I0 _ A _ B. cbn [In] in I0.
      assert (M : exists mk, syg_op f = Some mk /\ forall ea eb, type_of ea = Ok TInt -> type_of eb = Ok TInt -> exists e, mk [ea; eb] = Ok e /\ type_of e = Ok TBool).
      { destruct I0 as [<-|[<-|[<-|[<-|[]]]]]; eexists; (split; [reflexivity|]); intros ea eb Ta Tb; eexists;
          (split; [cbn [snd]; unfold mkCmp; rewrite Ta, Tb; reflexivity|reflexivity]). }
      destruct M as [mk [O M]]. exact (bin_read f mk G a b _ _ _ O A B M).
    - intros G a b t _ A _ B. apply (bin_read "=" mkEq G a b t t TBool eq_refl A B). intros ea eb _ _. eexists; split; reflexivity.
    - intros G f a b I0 _ A _ B. cbn [In] in I0.
      assert (M : exists mk, syg_op f = Some mk /\ forall ea eb, type_of ea = Ok TBool -> type_of eb = Ok TBool -> exists e, mk [ea; eb] = Ok e /\ type_of e = Ok TBool).
      { destruct I0 as [<-|[<-|[<-|[]]]]; eexists; (split; [reflexivity|]); intros ea eb Ta Tb; eexists;
          (split; [cbn [snd]; unfold mkBoolN, mkImplies; cbn [check_types]; rewrite Ta, Tb; reflexivity|reflexivity]). }
      destruct M as [mk [O M]]. exact (bin_read f mk G a b _ _ _ O A B M).
    - intros G a _ A L T. destruct (A L T) as [ea [Ea Ta]]. exists (Node KNot TBool [ea]). split; [|reflexivity].
      change (syg_expr F V L (SL [SA "not"; a])) with (a <- syg_expr F V L a ;; mkNot [a]). rewrite Ea. cbn [bindR]. unfold mkNot. cbn [check_types]. rewrite Ta. reflexivity.
    - intros G c a b t _ C _ A _ B L T. destruct (C L T) as [ec [Ec Tc]]. destruct (A L T) as [ea [Ea Ta]]. destruct (B L T) as [eb [Eb Tb]].
      assert (D : dget F "ite" = None). { destruct (dget F "ite") as [u|] eqn:D; [|reflexivity]. destruct (NF _ _ D) as [_ X]. vm_compute in X. discriminate X. }
      exists (Node KIte t [ec; ea; eb]). split; [|reflexivity]. cbn [syg_expr map].
      change (syg_op "ite") with (@None (list expr -> res expr)). cbv iota. change (String.eqb "ite" "not") with false. cbv iota. rewrite D.
      change (String.eqb "ite" "let") with false. change (String.eqb "ite" "ite") with true. cbv iota. unfold nth_res. cbn [nth_error].
      rewrite Ec, Ea, Eb. cbn [bindR]. unfold mkIte. rewrite Tc, Ta, Tb. cbn [bindR]. rewrite !tyeq. reflexivity.
    - intros G x a b t t' _ _ A _ B L T. destruct (A L T) as [ea [Ea Ta]]. destruct (B (dset L x ea) (typed_set G L x ea t T Ta)) as [eb [Eb Tb]].
      assert (D : dget F "let" = None). { destruct (dget F "let") as [u|] eqn:D; [|reflexivity]. destruct (NF _ _ D) as [_ X]. vm_compute in X. discriminate X. }
      exists eb. split; [|exact Tb]. cbn [syg_expr map]. change (syg_op "let") with (@None (list expr -> res expr)). cbv iota. change (String.eqb "let" "not") with false. cbv iota.
      rewrite D. change (String.eqb "let" "let") with true. cbv iota. rewrite Ea. cbn [bindR]. exact Eb.
    - intros G f l r ts S0 D _ A L T. destruct (A L T) as [es E]. exists (Node KCall r (Atom (PStr f) :: es)). split; [|reflexivity].
      destruct (symbol_inv f S0) as [_ [_ [_ [_ [_ [_ [O _]]]]]]].
      assert (O' : syg_op f = None /\ String.eqb f "not" = false).
      { assert (X : forall w k, op_kind w = Some k -> String.eqb f w = false) by (intros w k H; destruct (String.eqb_spec f w) as [-> |]; [congruence|reflexivity]).
        unfold syg_op. cbn [find fst].
        rewrite (X "=" KEq eq_refl), (X "+" KAdd eq_refl), (X "-" KSub eq_refl), (X "*" KMul eq_refl), (X "<" KLt eq_refl), (X "<=" KLe eq_refl),
          (X ">" KGt eq_refl), (X ">=" KGe eq_refl), (X "and" KAnd eq_refl), (X "or" KOr eq_refl), (X "=>" KImplies eq_refl), (X "not" KNot eq_refl). split; reflexivity. }
      destruct O' as [O1 O2]. cbn [syg_expr]. rewrite O1, O2, D. cbn [fn_return_type bindR]. rewrite E. reflexivity.
    - intros G o L T. exists (Node KCall (TSet TInt) [Atom (PStr "set-create")]). split; [|reflexivity].
      assert (D : dget F "as" = None). { destruct (dget F "as") as [u|] eqn:D; [|reflexivity]. destruct (NF _ _ D) as [_ X]. vm_compute in X. discriminate X. }
      cbn [syg_expr map]. change (syg_op "as") with (@None (list expr -> res expr)). cbv iota. change (String.eqb "as" "not") with false. cbv iota. rewrite D. reflexivity.
    - intros G a t _ A L T. destruct (A L T) as [ea [Ea Ta]]. exists (Node KCall (TSet t) [Atom (PStr "set-singleton"); ea]). split; [|reflexivity].
      assert (D : dget F "set.singleton" = None). { destruct (dget F "set.singleton") as [u|] eqn:D; [|reflexivity]. destruct (NF _ _ D) as [_ X]. vm_compute in X. discriminate X. }
      cbn [syg_expr map]. change (syg_op "set.singleton") with (@None (list expr -> res expr)). cbv iota. change (String.eqb "set.singleton" "not") with false. cbv iota. rewrite D.
      change ((ea <- nth_res [syg_expr F V L a] 0 ;; t <- type_of ea ;; mkCall (Atom (PStr "set-singleton")) (TSet t) [ea]) = Ok (Node KCall (TSet t) [Atom (PStr "set-singleton"); ea])).
      unfold nth_res. cbn [nth_error]. rewrite Ea. cbn [bindR]. rewrite Ta. reflexivity.
    - intros G a b t _ A _ B L T. destruct (A L T) as [ea [Ea Ta]]. destruct (B L T) as [eb [Eb Tb]].
      exists (Node KCall (TSet t) [Atom (PStr "set-insert"); ea; eb]). split; [|reflexivity].
      assert (D : dget F "set.insert" = None). { destruct (dget F "set.insert") as [u|] eqn:D; [|reflexivity]. destruct (NF _ _ D) as [_ X]. vm_compute in X. discriminate X. }
      cbn [syg_expr map]. change (syg_op "set.insert") with (@None (list expr -> res expr)). cbv iota. change (String.eqb "set.insert" "not") with false. cbv iota. rewrite D.
      change ((ea <- nth_res [syg_expr F V L a; syg_expr F V L b] 0 ;; eb <- nth_res [syg_expr F V L a; syg_expr F V L b] 1 ;; syg_set "set.insert" [ea; eb]) = Ok (Node KCall (TSet t) [Atom (PStr "set-insert"); ea; eb])).
      unfold nth_res. cbn [nth_error]. rewrite Ea, Eb. cbn [bindR]. unfold syg_set. cbn [String.eqb Ascii.eqb Bool.eqb]. rewrite Ta. reflexivity.
    - intros G f a b t I0 _ A _ B L T. destruct (A L T) as [ea [Ea Ta]]. destruct (B L T) as [eb [Eb Tb]]. cbn [In] in I0.
      assert (X : dget F f = None). { destruct (dget F f) as [u|] eqn:D; [|reflexivity]. destruct (NF _ _ D) as [_ X]. destruct I0 as [<-|[<-|[]]]; vm_compute in X; discriminate X. }
      assert (Y : syg_expr F V L (SL [SA f; a; b]) = (ea <- syg_expr F V L a ;; eb <- syg_expr F V L b ;; syg_set f [ea; eb])).
      { destruct I0 as [<-|[<-|[]]]; cbn [syg_expr map];
          [change (syg_op "set.union") with (@None (list expr -> res expr))|change (syg_op "set.minus") with (@None (list expr -> res expr))]; cbv iota;
          [change (String.eqb "set.union" "not") with false|change (String.eqb "set.minus" "not") with false]; cbv iota; rewrite X; reflexivity. }
      rewrite Y, Ea, Eb. cbn [bindR]. destruct I0 as [<-|[<-|[]]]; unfold syg_set; cbn [String.eqb Ascii.eqb Bool.eqb]; rewrite Ta; eexists; split; reflexivity.
    - intros G a b t _ A _ B L T. destruct (A L T) as [ea [Ea Ta]]. destruct (B L T) as [eb [Eb Tb]].
      exists (Node KCall TBool [Atom (PStr "set-subset"); ea; eb]). split; [|reflexivity].
      assert (D : dget F "set.subset" = None). { destruct (dget F "set.subset") as [u|] eqn:D; [|reflexivity]. destruct (NF _ _ D) as [_ X]. vm_compute in X. discriminate X. }
      cbn [syg_expr map]. change (syg_op "set.subset") with (@None (list expr -> res expr)). cbv iota. change (String.eqb "set.subset" "not") with false. cbv iota. rewrite D.
      change ((ea <- nth_res [syg_expr F V L a; syg_expr F V L b] 0 ;; eb <- nth_res [syg_expr F V L a; syg_expr F V L b] 1 ;; syg_set "set.subset" [ea; eb]) = Ok (Node KCall TBool [Atom (PStr "set-subset"); ea; eb])).
      unfold nth_res. cbn [nth_error]. rewrite Ea, Eb. reflexivity.
    - intros G a b t _ A _ B L T. destruct (A L T) as [ea [Ea Ta]]. destruct (B L T) as [eb [Eb Tb]].
      exists (Node KCall TBool [Atom (PStr "set-member"); ea; eb]). split; [|reflexivity].
      assert (D : dget F "set.member" = None). { destruct (dget F "set.member") as [u|] eqn:D; [|reflexivity]. destruct (NF _ _ D) as [_ X]. vm_compute in X. discriminate X. }
      cbn [syg_expr map]. change (syg_op "set.member") with (@None (list expr -> res expr)). cbv iota. change (String.eqb "set.member" "not") with false. cbv iota. rewrite D.
      change ((ea <- nth_res [syg_expr F V L a; syg_expr F V L b] 0 ;; eb <- nth_res [syg_expr F V L a; syg_expr F V L b] 1 ;; syg_set "set.member" [ea; eb]) = Ok (Node KCall TBool [Atom (PStr "set-member"); ea; eb])).
      unfold nth_res. cbn [nth_error]. rewrite Ea, Eb. reflexivity.
    - intros G L T. exists []. reflexivity.
    - intros G s l t ts _ A _ B L T. destruct (A L T) as [e [E _]]. destruct (B L T) as [es Es]. exists (e :: es).
      cbn [map List.length first_res]. rewrite E. cbn [bindR]. rewrite Es. reflexivity.
  Qed.
End Sorts.
