(** Names in the instructions for Gaudi: each is declared once, before it is read. *)

From Coq Require Import String Ascii List ZArith Bool Lia Decimal DecimalString DecimalNat.
From Verif Require Import Ast Dict SmtPrint UtilProofs NpModel GdModel GdSem GdProofs1 GdProofs2.
Import ListNotations.
Local Open Scope string_scope.
Local Open Scope list_scope.

(** an instruction reads only what is there from the start or declared before *)
Definition closed (src : string -> Prop) (l : list instr) : Prop :=
  forall p j q, l = p ++ j :: q -> forall x, In x (ireads j) -> src x \/ In (Some x) (map i_dest p).

Lemma closed_nil src : closed src [].
Proof. intros p j q E. destruct p; discriminate. Qed.
Lemma closed_app src l m : closed src l -> (forall p j q, m = p ++ j :: q -> forall x, In x (ireads j) -> src x \/ In (Some x) (map i_dest (l ++ p))) -> closed src (l ++ m).
Proof.
  intros L M p j q E x X. assert (H : (exists r, l = p ++ j :: r) \/ (exists r, p = l ++ r /\ m = r ++ j :: q)).
  { clear -E. revert p E. induction l as [|a l IH]; intros p E; cbn in E.
    - right. exists p. auto.
    - destruct p as [|b p]; cbn in E; injection E as E1 E.
      + left. subst a. exists l. reflexivity.
      + destruct (IH p E) as [(r & ->)|(r & -> & ->)]; subst b; [left; exists r; reflexivity|right; exists r; auto]. }
  destruct H as [(r & Hl)|(r & -> & ->)].
  - exact (L p j r Hl x X).
  - eapply M; eauto.
Qed.
Lemma closed_cat src l m : closed src l -> closed src m -> closed src (l ++ m).
Proof. intros L M. apply closed_app; [exact L|]. intros p j q E x X. destruct (M p j q E x X) as [A|A]; [auto|right]. rewrite map_app. apply in_or_app. auto. Qed.
Lemma closed_snoc src l j : closed src l -> (forall x, In x (ireads j) -> src x \/ In (Some x) (map i_dest l)) -> closed src (l ++ [j]).
Proof.
  intros L H. apply closed_app; [exact L|]. intros p j' q E x X. destruct p as [|? [|? ?]]; try discriminate E. injection E as E1 E2. subst j'.
  rewrite app_nil_r. auto.
Qed.

(** ** the instructions that have been emitted, in order: the n-th one defines the n-th name *)
Definition sum_exp (x : string) : cexp := CApp "v_i32_add_b" [CApp "v_i32_reduce_add" [CId x]; CId "sum"].
Inductive form (log : list instr) (n : nat) : instr -> Prop :=
| f_let t e : form log n (let_ n t e)
| f_decl : form log n (decl_ n)
| f_sum x : form log n (mkI (Some "sum") None (Some (sum_exp x)))
| f_set m k e : (1 <= k)%nat -> n = (m + k)%nat -> nth_error log m = Some (decl_ m) -> form log n (set_ m k e).
Definition good (log : list instr) : Prop := forall n j, nth_error log n = Some j -> form log n j.

Lemma form_more log more n j : form log n j -> form (log ++ more) n j.
Proof.
  intros [t e| |x|m k e K N E]; constructor; auto. rewrite nth_error_app1; [exact E|]. apply nth_error_Some. congruence.
Qed.
Lemma good_snoc log j : good log -> form log (List.length log) j -> good (log ++ [j]).
Proof.
  intros G F n i E. destruct (Nat.lt_ge_cases n (List.length log)) as [L|L].
  - rewrite nth_error_app1 in E by exact L. apply form_more, G, E.
  - rewrite nth_error_app2 in E by exact L. destruct (n - List.length log)%nat as [|k] eqn:Ek; [|destruct k; discriminate E].
    injection E as <-. assert (n = List.length log) as -> by lia. apply form_more, F.
Qed.

Section Names.
  Variables (fns : list (string * expr)) (d : dtype) (src : string -> Prop).
  Hypothesis constants : forall x, In x ["inputCoord"; "0"; "SW_LINEAR"; "SW_RD"; "sum"] -> src x.
  Definition covers (e : expr) : Prop := forall x, mentions x e = true -> src x.
  Hypothesis in_select : forall sel body, select_fn fns = Ok sel -> decl_body sel = Ok body -> covers body.

  Definition known (log : list instr) (loc : list instr) (i : instr) : Prop := incl loc log /\ In i loc /\ closed src loc.
  Definition logged (log : list instr) (s : gst) : Prop :=
    List.length log = fst s /\ good log /\ forall k o, In (k, o) (snd s) -> known log (fst o) (snd o).

  Lemma known_more log more loc i : known log loc i -> known (log ++ more) loc i.
  Proof. intros (A & B & C). split; [apply incl_appl, A|auto]. Qed.
  Lemma logged_snoc log s j : logged log s -> form log (fst s) j -> logged (log ++ [j]) (at_ s 1).
  Proof.
    intros (L & G & C) F. split; [|split].
    - rewrite app_length. cbn. lia.
    - apply good_snoc; [exact G|rewrite L; exact F].
    - intros k o H. apply known_more, (C k o H).
  Qed.

  Definition readable (loc : list instr) (e : cexp) : Prop := forall x, In x (creads e) -> src x \/ In (Some x) (map i_dest loc).
  Lemma readable_in loc i x : In i loc -> i_dest i = Some x -> In (Some x) (map i_dest loc).
  Proof. intros H E. rewrite <- E. apply in_map, H. Qed.
  Lemma readable_conv loc x a b : In (Some x) (map i_dest loc) -> readable loc (conv_rhs x a b).
  Proof.
    intros H y. unfold conv_rhs. destruct (bt_eqb a INT128 && bt_eqb b INT64); [|destruct (is_primitive a)]; cbn.
    - intros [<-|[]]. auto.
    - intros [<-|[]]. auto.
    - intros [<-|[<-|[]]]; [auto|]. left. apply constants. destruct a, b; cbn; auto.
  Qed.
  Lemma closed_let loc n t e : closed src loc -> readable loc e -> closed src (loc ++ [let_ n t e]).
  Proof. intros C R. apply closed_snoc; [exact C|exact R]. Qed.

  Lemma incl_snoc (A : Type) (l m : list A) j : incl l m -> incl (l ++ [j]) (m ++ [j]).
  Proof. intros H. apply incl_app; [apply incl_appl, H|apply incl_appr, incl_refl]. Qed.

  Definition after (log : list instr) (s' : gst) (loc : list instr) (i : instr) : Prop :=
    exists more, logged (log ++ more) s' /\ known (log ++ more) loc i.

  Lemma emit_as_names log s loc e t f s' loc' i : emit_as s loc e t f = Ok (s', loc', i) -> logged log s -> incl loc log -> closed src loc -> readable loc e ->
    after log s' loc' i.
  Proof.
    intros E L I C R. apply emit_as_inv in E. cbv zeta in E. destruct E as [(-> & -> & -> & _)|(u & _ & -> & -> & ->)].
    - exists [let_ (fst s) t e]. split; [apply logged_snoc; [exact L|constructor]|]. split; [apply incl_snoc, I|]. split; [apply in_or_app; cbn; auto|].
      apply closed_let; auto.
    - exists ([let_ (fst s) t e] ++ [let_ (S (fst s)) u (conv_rhs (fresh (fst s)) t u)]). rewrite app_assoc. split; [|split; [|split]].
      + apply (logged_snoc _ (at_ s 1)); [apply logged_snoc; [exact L|constructor]|constructor].
      + change [?a; ?b] with ([a] ++ [b]). rewrite app_assoc. apply incl_snoc, incl_snoc, I.
      + apply in_or_app. cbn. auto.
      + change [?a; ?b] with ([a] ++ [b]). rewrite app_assoc. apply closed_let; [apply closed_let; auto|].
        apply readable_conv. rewrite map_app. apply in_or_app. cbn. auto.
  Qed.

  Lemma remember_names log e s loc i s' loc' i' : remember e (s, loc, i) = Ok (s', (loc', i')) -> logged log s -> known log loc i -> logged log s' /\ known log loc' i'.
  Proof.
    intros E L K. destruct (i_type i) as [t|] eqn:T; [|unfold remember, type_of_instr in E; rewrite T in E; discriminate].
    destruct (remember_inv _ _ _ _ _ _ _ _ E T) as [(C & ->)|(_ & -> & -> & ->)].
    - split; [exact L|]. destruct L as (_ & _ & L). assert (H : exists k, In (k, (loc', i')) (snd s)).
      { clear -C. induction (snd s) as [|((e' & t') & o) c IH]; cbn in C; [discriminate|]. destruct (expr_eqb e e' && bt_eqb t t').
        - injection C as ->. exists (e', t'). cbn. auto.
        - destruct (IH C) as (k & H). exists k. cbn. auto. }
      destruct H as (k & H). exact (L k _ H).
    - split; [|exact K]. destruct L as (A & B & C). split; [exact A|]. split; [exact B|]. intros k o H. apply in_app_or in H as [H|[[= <- <-]|[]]]; [eauto|exact K].
  Qed.

  Lemma quad_names log s m l fi se : logged log s -> fst s = m -> incl l log -> closed src l -> (forall k, readable l (fmul (fi k) (se k))) ->
    after log (at_ s 6) (l ++ quads m fi se) (let_ (m + 5) UCHAR256 (conv_rhs (fresh m) FLOAT256 UCHAR256)).
  Proof.
    intros L <- I C R. set (m := fst s) in *.
        exists (quads m fi se). destruct L as (Ln & G & K).
        assert (Gq : forall js, (forall n j, nth_error js n = Some j -> form (log ++ firstn n js) (m + n) j) -> good (log ++ js)).
        { clear -Ln G. intros js H. assert (X : forall n, good (log ++ firstn n js)).
          { induction n as [|n IH]; [cbn; rewrite app_nil_r; exact G|]. destruct (nth_error js n) as [j|] eqn:E.
            - assert (F : firstn (S n) js = firstn n js ++ [j]).
              { clear -E. revert js E. induction n as [|n IH]; intros [|a js] E; try discriminate E; cbn in E |- *; [injection E as ->; reflexivity|]. rewrite <- (IH js E). reflexivity. }
              rewrite F, app_assoc. apply good_snoc; [exact IH|]. rewrite app_length, firstn_length_le, Ln; [apply H, E|].
              assert (n < List.length js)%nat by (apply nth_error_Some; congruence). lia.
            - apply nth_error_None in E. rewrite firstn_all2 by lia. rewrite firstn_all2 in IH by lia. exact IH. }
          specialize (X (List.length js)). rewrite firstn_all in X. exact X. }
        assert (D : nth_error (log ++ quads m fi se) m = Some (decl_ m)). { rewrite nth_error_app2; [|lia]. replace (m - List.length log)%nat with 0%nat by (unfold m; lia). reflexivity. }
        split; [|split; [|split]].
        - split; [|split].
          + rewrite app_length, Ln. cbn. lia.
          + apply Gq. intros n j E.
            assert (D' : forall k, nth_error (log ++ firstn (S k) (quads m fi se)) m = Some (decl_ m)).
            { intros k. rewrite nth_error_app2; [|lia]. replace (m - List.length log)%nat with 0%nat by (unfold m; lia). reflexivity. }
            destruct n as [|[|[|[|[|[|n]]]]]]; cbn in E; try (injection E as <-).
            1: { replace (m + 0)%nat with m by lia. constructor. }
            1-4: apply f_set; [lia|reflexivity|apply D'].
            * constructor.
            * destruct n; discriminate.
          + intros k o H. apply known_more, (K k o H).
        - apply incl_app; [apply incl_appl, I|apply incl_appr, incl_refl].
        - apply in_or_app. right. cbn. tauto.
        - apply closed_app; [exact C|]. intros p j q E x X.
          assert (H : forall k l0, In (Some (fresh m)) (map i_dest l0) -> incl l l0 -> In x (creads (CSet (fresh m) k (fmul (fi k) (se k)))) -> src x \/ In (Some x) (map i_dest l0)).
          { intros k l0 H1 H2 [<-|H]; [auto|]. destruct (R k x H) as [A|A]; [auto|right]. apply in_map_iff in A as (a & E1 & E2). rewrite <- E1. apply in_map, H2, E2. }
          assert (B : forall r, incl l (l ++ r)) by (intros; apply incl_appl, incl_refl).
          destruct p as [|j0 p]; cbn in E; injection E as E1 E; [subst j; destruct X|].
          assert (F : In (Some (fresh m)) (map i_dest (l ++ j0 :: p))). { rewrite map_app. apply in_or_app. right. subst j0. cbn. auto. }
          destruct p as [|? p]; cbn in E; injection E as E2 E; [subst j; apply (H 1%nat); auto|].
          destruct p as [|? p]; cbn in E; injection E as E3 E; [subst j; apply (H 2%nat); auto|].
          destruct p as [|? p]; cbn in E; injection E as E4 E; [subst j; apply (H 3%nat); auto|].
          destruct p as [|? p]; cbn in E; injection E as E5 E; [subst j; apply (H 4%nat); auto|].
          destruct p as [|? p]; cbn in E; injection E as E6 E; [subst j|destruct p; discriminate E].
          destruct X as [<-|[<-|[]]]; [auto|left; apply constants; cbn; auto].
  Qed.

  Lemma div_names log l1 i1 l2 i2 ov s s' loc i : div_tail ov (l1, i1) (l2, i2) s = Ok (s', (loc, i)) -> logged log s ->
    known log l1 i1 -> known log l2 i2 -> after log s' loc i.
  Proof.
    intros E L (I1 & J1 & C1) (I2 & J2 & C2). apply div_tail_inv in E as (x1 & x2 & X1 & X2 & E). cbv zeta in E.
    assert (In12 : incl (l1 ++ l2) log) by (apply incl_app; auto). assert (Cl : closed src (l1 ++ l2)) by (apply closed_cat; auto).
    assert (R1 : In (Some x1) (map i_dest (l1 ++ l2))) by (apply (readable_in _ i1); [apply in_or_app; auto|exact X1]).
    assert (R2 : In (Some x2) (map i_dest (l1 ++ l2))) by (apply (readable_in _ i2); [apply in_or_app; auto|exact X2]).
    set (n := fst s) in *. set (j := let_ n FLOAT64 (recip (CId x2))) in *. set (l := l1 ++ l2) in *.
    assert (Lj : logged (log ++ [j]) (at_ s 1)) by (apply logged_snoc; [exact L|constructor]).
    assert (Cj : closed src (l ++ [j])). { apply closed_let; [exact Cl|]. intros x [<-|[]]. auto. }
    assert (Ij : incl (l ++ [j]) (log ++ [j])) by (apply incl_snoc; auto).
    assert (W : forall x, In (Some x) (map i_dest l) -> In (Some x) (map i_dest (l ++ [j]))) by (intros x H; rewrite map_app; apply in_or_app; auto).
    assert (Wj : In (Some (fresh n)) (map i_dest (l ++ [j]))) by (rewrite map_app; apply in_or_app; cbn; auto).
    destruct E as [(_ & _ & E)|(_ & m & M & Es & El & Ei)].
    - destruct (emit_as_names (log ++ [j]) _ _ _ _ _ _ _ _ E Lj Ij Cj) as (more & A & B).
      { intros x [<-|[<-|[]]]; auto. }
      exists ([j] ++ more). rewrite app_assoc. auto.
    - set (fi := fun k => if is64 i1 then CId x1 else CField (CId x1) k) in *.
      set (se := fun k => if is64 i2 then CId (fresh n) else recip (CField (CId x2) k)) in *.
      pose proof (fun log s l A B C D => quad_names log s m l fi se A B C D) as Q.
      subst loc i. destruct (is64 i2) eqn:I64; subst s' m.
      + rewrite app_assoc. destruct (Q (log ++ [j]) (at_ s 1) (l ++ [j]) Lj eq_refl Ij Cj) as (more & A & B).
        { intros k x H. unfold fmul, fi, se in H. destruct (is64 i1); cbn in H; repeat destruct H as [<-|H]; try destruct H; auto. }
        exists ([j] ++ more). rewrite app_assoc. split; [exact A|exact B].
      + destruct (Q log s l L eq_refl In12 Cl) as (more & A & B).
        { intros k x H. unfold fmul, fi, se in H. destruct (is64 i1); cbn in H; repeat destruct H as [<-|H]; try destruct H; auto. }
        exists more. split; [exact A|exact B].
  Qed.

  Lemma mentions_child k t args x a : k <> KVar -> k <> KNonTerm -> In a args -> mentions x a = true -> mentions x (Node k t args) = true.
  Proof.
    intros N1 N2 I M. assert (A : (fix any (l : list expr) : bool := match l with [] => false | a :: l => mentions x a || any l end) args = true).
    { induction args as [|b r IH]; [destruct I|]. cbn in I. destruct I as [->|I]; [rewrite M; reflexivity|rewrite (IH I), orb_true_r; reflexivity]. }
    destruct k; try exact A; congruence.
  Qed.
  Lemma covers_child k t args a : k <> KVar -> k <> KNonTerm -> In a args -> covers (Node k t args) -> covers a.
  Proof. intros N1 N2 I C x M. apply C. eapply mentions_child; eauto. Qed.
  Lemma covers_0 k t a rest : k <> KVar -> k <> KNonTerm -> covers (Node k t (a :: rest)) -> covers a.
  Proof. intros A B. apply covers_child; auto; cbn; auto. Qed.
  Lemma covers_1 k t a b rest : k <> KVar -> k <> KNonTerm -> covers (Node k t (a :: b :: rest)) -> covers b.
  Proof. intros A B. apply covers_child; auto; cbn; auto. Qed.
  Lemma covers_var k t x rest : is_var k -> covers (Node k t (Atom (PStr x) :: rest)) -> src x.
  Proof. intros K C. apply C. destruct K as [-> | ->]; cbn; apply String.eqb_refl. Qed.
  Definition covers_vars (vars : list (string * expr)) : Prop := forall x a, dget vars x = Some a -> covers a.
  Lemma covers_dset x ma y mb : covers ma -> covers mb -> covers_vars (dset (dset [] x ma) y mb).
  Proof.
    intros A B z a E. rewrite !dget_dset in E. destruct (String.eqb z y); [injection E as <-; exact B|]. destruct (String.eqb z x); [injection E as <-; exact A|discriminate].
  Qed.

  Lemma known_app log l1 i1 l2 i2 : known log l1 i1 -> known log l2 i2 -> incl (l1 ++ l2) log /\ closed src (l1 ++ l2).
  Proof. intros (A & _ & B) (C & _ & D). split; [apply incl_app; auto|apply closed_cat; auto]. Qed.
  Lemma dest_in (l : list instr) i x : In i l -> i_dest i = Some x -> In (Some x) (map i_dest l).
  Proof. apply readable_in. Qed.

  Lemma gen_names e ov vars s s' loc i : gen fns d e ov vars s s' loc i -> covers e -> covers_vars vars -> forall log, logged log s -> after log s' loc i.
  Proof.
    induction 1 as
      [k t x rest a ov vars s s' loc i K D G IH
      |k t x rest def ov vars s r s' loc i K D B T E R
      |k t x rest def ov vars s r s' loc i K D B T E R
      |t c a b ov vars s s' loc i G IH
      |t a rest def ov vars s r s' loc i B E R
      |k op t a b rest def ov vars s s1 l1 i1 s2 l2 i2 t1 t2 x1 x2 s' loc i Op B G1 IH1 G2 IH2 T1 T2 P1 P2 X1 X2 E
      |k t a b rest pre a' b' ov vars s s1 l1 i1 s2 l2 i2 s' loc i Op G1 IH1 G2 IH2 Pr G IH
      |k t f ma mb rest def sel t' kc tc c0 c1 cs a b p q ps x y op ov vars s s0 l0 i0 s1 l1 i1 s2 l2 i2 s3 l3 i3 x0 x1 x2 x3 s' loc i K F B Se Bo Pa Nx Ny Sn G0 IH0 G1 IH1 G2 IH2 G3 IH3 X0 X1 X2 X3 E
      |k t a rest ov vars s s1 l1 i1 x s' loc i K G IH X E
      |k t f a rest ov vars s s' loc i K F G IH
      |k t f a b rest ov vars s s1 l1 i1 s2 l2 i2 s' loc i K F G1 IH1 G2 IH2 E
      |k t f a b rest def ov vars s s1 l1 i1 s2 l2 i2 x1 x2 g ret s' loc i K F B G1 IH1 G2 IH2 X1 X2 A E]; intros Ce Cv log L.
    - apply IH; auto. exact (Cv x a D).
    - pose proof (covers_var _ _ _ _ K Ce) as Sx. destruct r as ((s1 & l1) & i1).
      destruct (emit_as_names _ _ _ _ _ _ _ _ _ E L) as (more & L1 & K1); [intros ? []|apply closed_nil| |].
      { intros y [<-|[<-|[]]]; [left; apply constants; cbn; auto|auto]. }
      exists more. eapply remember_names; eauto.
    - pose proof (covers_var _ _ _ _ K Ce) as Sx. apply emit_let in E as ->. cbn [app] in R. exists [let_ (fst s) (or_ ov def) (CId x)].
      eapply remember_names; [exact R|apply logged_snoc; [exact L|constructor]|]. split; [apply incl_appr, incl_refl|]. split; [cbn; auto|].
      apply (closed_snoc src []); [apply closed_nil|]. intros y [<-|[]]. auto.
    - apply IH; auto. eapply covers_child; [| | |exact Ce]; try discriminate. cbn. auto.
    - apply emit_let in E as ->. cbn [app] in R. exists [let_ (fst s) (or_ ov def) (CLit a)].
      eapply remember_names; [exact R|apply logged_snoc; [exact L|constructor]|]. split; [apply incl_appr, incl_refl|]. split; [cbn; auto|].
      apply (closed_snoc src []); [apply closed_nil|]. intros y [].
    - assert (N : k <> KVar /\ k <> KNonTerm) by (destruct k; (discriminate Op || (split; discriminate))). destruct N as (N1 & N2).
      destruct (IH1 (covers_0 _ _ _ _ N1 N2 Ce) Cv log L) as (m1 & L1 & K1).
      destruct (IH2 (covers_1 _ _ _ _ _ N1 N2 Ce) Cv _ L1) as (m2 & L2 & K2).
      apply (known_more _ m2) in K1. destruct (known_app _ _ _ _ _ K1 K2) as (I12 & C12). destruct K1 as (_ & K1 & _), K2 as (_ & K2 & _).
      destruct (emit_as_names _ _ _ _ _ _ _ _ _ E L2 I12 C12) as (m3 & L3 & K3).
      { intros y [<-|[<-|[]]]; right; [apply (dest_in _ i1)|apply (dest_in _ i2)]; auto; apply in_or_app; auto. }
      exists (m1 ++ m2 ++ m3). rewrite !app_assoc. split; assumption.
    - assert (N : k <> KVar /\ k <> KNonTerm) by (destruct k; try (destruct (Op eq_refl)); split; discriminate). destruct N as (N1 & N2).
      assert (Ca : covers a) by exact (covers_0 _ _ _ _ N1 N2 Ce).
      assert (Cb : covers b) by exact (covers_1 _ _ _ _ _ N1 N2 Ce).
      destruct (IH1 Ca Cv log L) as (m1 & L1 & K1). destruct (IH2 Cb Cv _ L1) as (m2 & L2 & K2).
      destruct (IH) with (log := (log ++ m1) ++ m2) as (m3 & L3 & K3); auto.
      { intros z M. cbn in M. rewrite orb_false_r in M. apply orb_prop in M. destruct Pr as [(_ & -> & ->)|[(_ & -> & ->)|(_ & -> & ->)]]; destruct M; auto. }
      exists (m1 ++ m2 ++ m3). rewrite !app_assoc. split; assumption.
    - assert (N : k <> KVar /\ k <> KNonTerm) by (destruct K as [-> | ->]; split; discriminate). destruct N as (N1 & N2).
      assert (Cva : covers_vars (dset (dset [] x ma) y mb)).
      { apply covers_dset; (eapply covers_child; [| | |exact Ce]); auto; cbn; auto. }
      pose proof (in_select _ _ Se Bo) as Cs.
      assert (Cc : covers (Node kc tc (c0 :: c1 :: cs))) by (eapply covers_child; [| | |exact Cs]; try discriminate; cbn; auto).
      assert (Nc : kc <> KVar /\ kc <> KNonTerm) by (destruct kc; (discriminate Sn || (split; discriminate))). destruct Nc as (Nc1 & Nc2).
      destruct (IH0) with (log := log) as (m0 & L0 & K0); auto. { eapply covers_child; [| | |exact Cc]; auto; cbn; auto. }
      destruct (IH1) with (log := log ++ m0) as (m1 & L1 & K1); auto. { eapply covers_child; [| | |exact Cc]; auto; cbn; auto. }
      destruct (IH2) with (log := (log ++ m0) ++ m1) as (m2 & L2 & K2); auto. { eapply covers_child; [| | |exact Cs]; try discriminate; cbn; auto. }
      destruct (IH3) with (log := ((log ++ m0) ++ m1) ++ m2) as (m3 & L3 & K3); auto. { eapply covers_child; [| | |exact Cs]; try discriminate; cbn; auto. }
      apply (known_more _ m1), (known_more _ m2), (known_more _ m3) in K0. apply (known_more _ m2), (known_more _ m3) in K1. apply (known_more _ m3) in K2.
      destruct K0 as (A0 & J0 & C0), K1 as (A1 & J1 & C1), K2 as (A2 & J2 & C2), K3 as (A3 & J3 & C3).
      destruct (emit_as_names _ _ _ _ _ _ _ _ _ E L3) as (m4 & L4 & K4).
      { repeat apply incl_app; auto. }
      { repeat apply closed_cat; auto. }
      { intros z. cbn. intros [<-|[<-|[<-|[<-|[]]]]]; right; [apply (dest_in _ i0)|apply (dest_in _ i1)|apply (dest_in _ i2)|apply (dest_in _ i3)]; auto; rewrite !in_app_iff; auto. }
      exists (m0 ++ m1 ++ m2 ++ m3 ++ m4). rewrite !app_assoc. split; assumption.
    - assert (N : k <> KVar /\ k <> KNonTerm) by (destruct K as [-> | ->]; split; discriminate). destruct N as (N1 & N2).
      destruct (IH) with (log := log) as (m1 & L1 & K1); auto. { eapply covers_child; [| | |exact Ce]; auto; cbn; auto. }
      cbn in E. injection E as <- <- <-. destruct K1 as (A1 & J1 & C1).
      exists (m1 ++ [mkI (Some "sum") None (Some (sum_exp x))]). rewrite app_assoc. split; [apply (logged_snoc _ s1); [exact L1|constructor]|].
      split; [apply incl_snoc, A1|]. split; [apply in_or_app; cbn; auto|]. apply closed_snoc; [exact C1|].
      intros z [<-|[<-|[]]]; [right; apply (dest_in _ i1); auto|left; apply constants; cbn; tauto].
    - assert (N : k <> KVar /\ k <> KNonTerm) by (destruct K as [-> | ->]; split; discriminate). destruct N as (N1 & N2).
      apply IH; auto. eapply covers_child; [| | |exact Ce]; auto; cbn; auto.
    - assert (N : k <> KVar /\ k <> KNonTerm) by (destruct K as [-> | ->]; split; discriminate). destruct N as (N1 & N2).
      destruct (IH1) with (log := log) as (m1 & L1 & K1); auto. { eapply covers_child; [| | |exact Ce]; auto; cbn; auto. }
      destruct (IH2) with (log := log ++ m1) as (m2 & L2 & K2); auto. { eapply covers_child; [| | |exact Ce]; auto; cbn; auto. }
      apply (known_more _ m2) in K1.
      assert (H : after ((log ++ m1) ++ m2) s' loc i) by (destruct (swapped f); eapply div_names; eauto).
      destruct H as (m3 & L3 & K3). exists (m1 ++ m2 ++ m3). rewrite !app_assoc. split; assumption.
    - assert (N : k <> KVar /\ k <> KNonTerm) by (destruct K as [-> | ->]; split; discriminate). destruct N as (N1 & N2).
      destruct (IH1) with (log := log) as (m1 & L1 & K1); auto. { eapply covers_child; [| | |exact Ce]; auto; cbn; auto. }
      destruct (IH2) with (log := log ++ m1) as (m2 & L2 & K2); auto. { eapply covers_child; [| | |exact Ce]; auto; cbn; auto. }
      apply (known_more _ m2) in K1. destruct (known_app _ _ _ _ _ K1 K2) as (I12 & C12). destruct (known_app _ _ _ _ _ K2 K1) as (I21 & C21).
      destruct K1 as (_ & K1 & _), K2 as (_ & K2 & _).
      destruct (emit_as_names _ _ _ _ _ _ _ _ _ E L2) as (m3 & L3 & K3).
      { destruct (swapped f); assumption. }
      { destruct (swapped f); assumption. }
      { intros z H. right. assert (z = x1 \/ z = x2) by (destruct (swapped f); cbn in H; intuition). destruct H0 as [-> | ->]; [apply (dest_in _ i1)|apply (dest_in _ i2)]; auto;
          destruct (swapped f); apply in_or_app; auto. }
      exists (m1 ++ m2 ++ m3). rewrite !app_assoc. split; assumption.
  Qed.
End Names.

(** ** texts of instructions in the log tell them apart *)
Lemma digits_lack u : lacks "."%char (NilEmpty.string_of_uint u) /\ lacks " "%char (NilEmpty.string_of_uint u).
Proof. induction u; cbn; auto; repeat split; try discriminate; tauto. Qed.
Lemma split_first c a : forall b x y, lacks c a -> lacks c b -> (a ++ String c x = b ++ String c y)%string -> a = b /\ x = y.
Proof.
  induction a as [|h a IH]; intros [|g b] x y A B E; cbn in *; injection E; intros; subst; try tauto.
  destruct (IH b x y) as [-> ->]; tauto.
Qed.
Lemma fresh_inj n m : fresh n = fresh m -> n = m.
Proof. unfold fresh. intros [= E]. apply string_of_nat_inj, E. Qed.
Lemma fresh_not_sum n : fresh n <> "sum".
Proof. discriminate. Qed.
Lemma list_of_app a b : list_ascii_of_string (a ++ b)%string = list_ascii_of_string a ++ list_ascii_of_string b.
Proof. induction a as [|c a IH]; cbn; [reflexivity|f_equal; exact IH]. Qed.
Lemma append_cancel_r a b c : (a ++ c = b ++ c)%string -> a = b.
Proof.
  intros E. apply (f_equal list_ascii_of_string) in E. rewrite !list_of_app in E. apply app_inv_tail in E.
  rewrite <- (string_of_list_ascii_of_string a), <- (string_of_list_ascii_of_string b), E. reflexivity.
Qed.
Lemma set_text m k e n l f : ctext (CSet (fresh m) k e) = ctext (CSet (fresh n) l f) -> m = n /\ k = l.
Proof.
  cbn [ctext]. change (".v" ++ ?x)%string with (String "." (String "v" x)). unfold fresh. cbn [append]. intros [= E].
  apply split_first in E as [E1 E2]; try apply digits_lack. apply string_of_nat_inj in E1. injection E2 as E2.
  change (" = " ++ ?x)%string with (String " " (String "=" (String " " x))) in E2. apply split_first in E2 as [E2 _]; try apply digits_lack.
  apply string_of_nat_inj in E2. auto.
Qed.
Lemma sum_text x y : ctext (sum_exp x) = ctext (sum_exp y) -> x = y.
Proof.
  cbn. intros [= E]. change (x ++ ")" ++ ", " ++ "sum")%string with (x ++ "), sum")%string in E.
  repeat apply append_cancel_r in E. exact E.
Qed.

Lemma oeq_some {A} (eqb : A -> A -> bool) (H : forall a b, eqb a b = true -> a = b) (x y : option A) :
  match x, y with Some a, Some b => eqb a b | None, None => true | _, _ => false end = true -> x = y.
Proof. destruct x, y; try discriminate; auto. intros E. f_equal. auto. Qed.
Lemma instr_eqb_text i j : instr_eqb i j = true -> i_dest i = i_dest j /\ i_type i = i_type j /\ option_map ctext (i_exp i) = option_map ctext (i_exp j).
Proof.
  unfold instr_eqb. intros E. apply andb_prop in E as (E & E3). apply andb_prop in E as (E1 & E2).
  apply oeq_some in E1; [|apply String.eqb_eq]. apply oeq_some in E2; [|apply bt_eqb_eq]. apply oeq_some in E3; [|apply String.eqb_eq]. auto.
Qed.
Lemma instr_eqb_refl i : instr_eqb i i = true.
Proof.
  unfold instr_eqb. destruct (i_dest i), (i_type i) as [t|], (i_exp i); cbn; rewrite ?String.eqb_refl; try (destruct t; reflexivity); reflexivity.
Qed.

(** what an instruction defines: a variable, or a field of one *)
Definition key (j : instr) : option (string * nat) :=
  match i_dest j, i_type j, i_exp j with
  | Some x, Some _, _ => Some (x, 0%nat)
  | None, None, Some (CSet x k _) => Some (x, k)
  | _, _, _ => None
  end.
Definition keys (l : list instr) : list (string * nat) := flat_map (fun j => match key j with Some k => [k] | None => [] end) l.

Section Log.
  Variable log : list instr.
  Hypothesis G : good log.
  Lemma same_key i j k : In i log -> In j log -> key i = Some k -> key j = Some k -> i = j.
  Proof.
    intros I J. apply In_nth_error in I as (n & I), J as (m & J). pose proof (G _ _ I) as Fi. pose proof (G _ _ J) as Fj. intros Ki Kj.
    assert (S : n = m -> i = j) by (intros <-; congruence).
    destruct Fi as [t e| |x|m1 k1 e A1 A2 A3], Fj as [t' e'| |x'|m2 k2 e' B1 B2 B3]; cbn in Ki, Kj; rewrite <- Ki in Kj; try discriminate Ki; try discriminate Kj;
      injection Kj as E; try (apply string_of_nat_inj in E; auto); subst; try lia.
    all: try (apply S; congruence).
  Qed.
  Lemma same_text i j : In i log -> In j log -> instr_eqb i j = true -> i = j.
  Proof.
    intros I J T. apply instr_eqb_text in T as (T1 & T2 & T3).
    pose proof I as Fi. pose proof J as Fj. apply In_nth_error in Fi as (n & Fi), Fj as (m & Fj).
    assert (S : n = m -> i = j) by (intros <-; congruence). apply G in Fi, Fj.
    destruct Fi as [t e| |x|m1 k1 e A1 A2 A3], Fj as [t' e'| |x'|m2 k2 e' B1 B2 B3]; cbn in T1, T2; try discriminate T1; try discriminate T2.
    - injection T1 as E. apply string_of_nat_inj in E. auto.
    - injection T1 as E. apply string_of_nat_inj in E. auto.
    - injection T1 as E. apply string_of_nat_inj in E. auto.
    - injection T1 as E. apply string_of_nat_inj in E. auto.
    - cbn [i_exp option_map] in T3. assert (E : ctext (sum_exp x) = ctext (sum_exp x')) by congruence. apply sum_text in E as <-. reflexivity.
    - apply S. cbn [i_exp option_map set_] in T3. assert (E : ctext (CSet (fresh m1) k1 e) = ctext (CSet (fresh m2) k2 e')) by congruence.
      apply set_text in E. lia.
  Qed.

  Lemma dedup_part seen l j : In j (dedup seen l) -> In j l.
  Proof. revert seen. induction l as [|i l IH]; intros seen; cbn; [auto|]. destruct (existsb (instr_eqb i) seen); cbn; intros H; [right; eauto|destruct H; eauto]. Qed.
  Lemma dedup_whole seen l j : incl seen log -> incl l log -> In j l -> In j seen \/ In j (dedup seen l).
  Proof.
    revert seen. induction l as [|i l IH]; intros seen S L H; [destruct H|]. assert (Ii : In i log) by (apply L; cbn; auto).
    assert (Ll : incl l log) by (intros x X; apply L; cbn; auto). cbn. destruct (existsb (instr_eqb i) seen) eqn:E.
    - destruct H as [<-|H]; [|apply IH; auto]. left. apply existsb_exists in E as (a & A & E). rewrite (same_text i a); auto.
    - destruct H as [<-|H]; [cbn; auto|]. destruct (IH (i :: seen)) as [[->|A]|A]; cbn; auto. intros x [<-|X]; auto.
  Qed.
  Lemma dedup_once seen l : NoDup (dedup seen l) /\ forall j, In j (dedup seen l) -> ~ In j seen.
  Proof.
    revert seen. induction l as [|i l IH]; intros seen; cbn; [split; [constructor|auto]|]. destruct (existsb (instr_eqb i) seen) eqn:E; [apply IH|].
    destruct (IH (i :: seen)) as (A & B). split.
    - constructor; [|exact A]. intros H. apply (B i H). cbn. auto.
    - intros j [<-|H] S; [|apply (B j H); cbn; auto]. enough (true = false) by discriminate. rewrite <- E. symmetry. apply existsb_exists.
      exists i. split; [exact S|apply instr_eqb_refl].
  Qed.
  Lemma dedup_before seen l : incl seen log -> incl l log -> forall p j q, dedup seen l = p ++ j :: q ->
    exists p' q', l = p' ++ j :: q' /\ forall a, In a p' -> In a seen \/ In a p.
  Proof.
    revert seen. induction l as [|i l IH]; intros seen S L p j q E; cbn in E; [destruct p; discriminate|].
    assert (Ii : In i log) by (apply L; cbn; auto). assert (Ll : incl l log) by (intros x X; apply L; cbn; auto).
    destruct (existsb (instr_eqb i) seen) eqn:Ex.
    - destruct (IH seen S Ll p j q E) as (p' & q' & -> & H). exists (i :: p'), q'. split; [reflexivity|]. intros a [<-|A]; [left|auto].
      apply existsb_exists in Ex as (b & B & Eb). rewrite (same_text i b); auto.
    - destruct p as [|b p]; cbn in E; injection E as E1 E.
      + subst j. exists [], l. split; [reflexivity|]. intros a [].
      + subst b. destruct (IH (i :: seen)) with (p := p) (j := j) (q := q) as (p' & q' & -> & H); auto. { intros x [<-|X]; auto. }
        exists (i :: p'), q'. split; [reflexivity|]. intros a [<-|A]; cbn; auto. destruct (H a A) as [[->|B]|B]; auto.
  Qed.
  Lemma dedup_closed src l : incl l log -> closed src l -> closed src (dedup [] l).
  Proof.
    intros L C p j q E x X. destruct (dedup_before [] l) with (p := p) (j := j) (q := q) as (p' & q' & El & H); auto. { intros a []. }
    destruct (C _ _ _ El x X) as [A|A]; [auto|right]. apply in_map_iff in A as (a & Ea & A). rewrite <- Ea. apply in_map. destruct (H a A) as [[]|B]; exact B.
  Qed.
  Lemma dedup_keys l : incl l log -> NoDup (keys (dedup [] l)).
  Proof.
    intros L. destruct (dedup_once [] l) as (N & _). assert (I : incl (dedup [] l) log) by (intros a A; apply L, (dedup_part [] l), A).
    revert N I. generalize (dedup [] l). clear L l. induction l as [|i l IH]; intros N I; [constructor|]. inversion N as [|? ? Ni Nl]; subst. cbn.
    assert (Il : incl l log) by (intros x X; apply I; cbn; auto). destruct (key i) as [k|] eqn:K; [|apply IH; auto]. cbn. constructor; [|apply IH; auto].
    intros H. apply in_flat_map in H as (j & J & H). destruct (key j) as [k'|] eqn:K'; [|destruct H]. destruct H as [->|[]].
    apply Ni. rewrite (same_key i j k); auto. apply I. cbn. auto.
  Qed.
End Log.

(** ** the whole *)
Lemma gen_whole fns d e ov s' loc i : gen fns d e ov [] (0, []) s' loc i ->
  exists log, good log /\ incl loc log /\ In i loc /\ closed (src_of fns e) loc.
Proof.
  intros H. destruct (gen_names fns d (src_of fns e)) with (e := e) (ov := ov) (vars := @nil (string * expr)) (s := (0, @nil ((expr * bt) * (list instr * instr)))%nat) (s' := s') (loc := loc) (i := i) (log := @nil instr) as (more & (_ & L & _) & (A & B & C)); auto.
  - intros x X. left. exact X.
  - intros sel b S D x M. right. right. exists sel, b. auto.
  - intros x M. right. auto.
  - intros x a E. discriminate E.
  - split; [reflexivity|]. split; [|intros k o []]. intros n j E. destruct n; discriminate E.
  - exists more. auto.
Qed.
