(** Functions and whole solutions. *)

From Coq Require Import String List ZArith Bool Lia Permutation.
From Verif Require Import Ast IrProofs IrProofs3 Dict Semantics SmtPrelude SmtProofs RktModel RktProofs ListOps LibSem ObjModel Properties_Rkt Properties_Obj LmModel LmSem LmProofs LmProofs2 LmProofs3.
Import ListNotations.
Local Open Scope string_scope.
Local Open Scope list_scope.
Local Open Scope Z_scope.

(** ** Binding by name *)
Lemma bind_get ps : forall vs r r' x, bind ps vs r = Some r' ->
  r' x = match dget (combine ps vs) x with Some v => Some v | None => r x end.
Proof.
  induction ps as [|p ps IH]; intros [|v vs] r r' x E; try discriminate; cbn in *; [congruence|].
  destruct (bind ps vs r) eqn:B; [|discriminate]. injection E as <-. unfold upd. rewrite String.eqb_sym. destruct (String.eqb x p); [reflexivity|eauto].
Qed.
Lemma dget_in_iff {A} (l : dict A) x v : NoDup (map fst l) -> (dget l x = Some v <-> In (x, v) l).
Proof.
  induction l as [|[y w] l IH]; cbn; intros N; [split; [discriminate|tauto]|]. inversion N as [|? ? N1 N2]; subst.
  destruct (String.eqb x y) eqn:Q.
  - apply String.eqb_eq in Q. subst y. split; [intros X; left; congruence|intros [X|X]; [congruence|]]. exfalso. apply N1. change x with (fst (x, v)). now apply in_map.
  - rewrite IH by exact N2. split; [auto|intros [X|X]; [|exact X]]. injection X as -> ->. rewrite String.eqb_refl in Q. discriminate.
Qed.
Lemma dget_perm {A} (l l' : dict A) x : Permutation l l' -> NoDup (map fst l) -> dget l x = dget l' x.
Proof.
  intros Pm N. assert (N' : NoDup (map fst l')) by (eapply Permutation_NoDup; [apply Permutation_map, Pm|exact N]).
  destruct (dget l x) as [v|] eqn:E.
  - symmetry. apply dget_in_iff; [exact N'|]. eapply Permutation_in; [exact Pm|]. now apply dget_in_iff.
  - destruct (dget l' x) as [v|] eqn:E'; [|reflexivity]. apply dget_in_iff in E'; [|exact N']. apply (Permutation_in _ (Permutation_sym Pm)) in E'. apply dget_in_iff in E'; [|exact N]. congruence.
Qed.
Lemma combine_fst {A B} (l : list A) : forall l' : list B, List.length l = List.length l' -> map fst (combine l l') = l.
Proof. induction l as [|a l IH]; intros [|b l'] L; try discriminate; cbn; [reflexivity|]. rewrite IH; [reflexivity|cbn in L; congruence]. Qed.
Lemma bind_perm ps vs qs ws r r1 r2 : NoDup ps -> Permutation (combine ps vs) (combine qs ws) -> bind ps vs r = Some r1 -> bind qs ws r = Some r2 ->
  forall x, r1 x = r2 x.
Proof.
  intros N Pm B1 B2 x. rewrite (bind_get _ _ _ _ x B1), (bind_get _ _ _ _ x B2). rewrite (dget_perm _ _ x Pm); [reflexivity|].
  rewrite combine_fst; [exact N|exact (bind_len' _ _ _ _ B1)].
Qed.

(** ** Sorting *)
Lemma insert_perm v l : Permutation (insert v l) (v :: l).
Proof. induction l as [|w l IH]; cbn; [reflexivity|]. destruct (String.leb _ _); [reflexivity|]. rewrite IH. apply perm_swap. Qed.
Lemma sort_perm l : Permutation (sort_vars l) l.
Proof. induction l as [|v l IH]; cbn; [reflexivity|]. rewrite insert_perm. now apply perm_skip. Qed.

Lemma parse_body_ok sigs b s e s' : parse_body sigs b s = (Ok e, s') -> exists n, returned b = Some n /\ parse sigs n s = (Ok e, s').
Proof.
  unfold parse_body. intros E. destruct b as [|[lhs x|o|] [|[lhs' x'|o'|] [|? ?]]]; try discriminate; try (now (destruct o; discriminate)); try (now (destruct lhs as [|[] []]; discriminate)).
  - destruct lhs as [|[y|] [|? ?]]; try discriminate. destruct o' as [[]|]; try discriminate. cbn [returned]. destruct (String.eqb y x0); [eauto|discriminate].
  - destruct o as [x|]; [|discriminate]. exists x. auto.
Qed.
Lemma pexec_returned st D nm r b n v : returned b = Some n -> pexec st D nm r b = Some v -> pvalue st D nm r n = Some v.
Proof.
  destruct b as [|[lhs x|[o|]|] [|[lhs' x'|[o'|]|] [|? ?]]]; try discriminate; try (destruct lhs as [|[] []]; discriminate); cbn [returned]; intros R E.
  - destruct lhs as [|[y|] [|? ?]]; try discriminate. destruct o'; try discriminate. destruct (String.eqb y x0) eqn:Q; [|discriminate]. injection R as ->. cbn [pexec] in E.
    destruct (pvalue st D nm r n) as [w|]; [|discriminate]. cbn [fold_left] in E. apply String.eqb_eq in Q. subst x0. unfold pvalue in E. cbn [peval] in E. unfold upd in E. rewrite String.eqb_refl in E. exact E.
  - destruct lhs as [|[y|] [|? ?]]; try discriminate R. destruct o'; discriminate R.
  - injection R as ->. exact E.
Qed.
Lemma params_vnames ps ts vs : params ps ts = Ok vs -> List.length ps = List.length ts -> map vname vs = ps.
Proof. intros E L. exact (proj1 (params_ok ps ts vs E L)). Qed.

(** ** One function *)
Section Fun.
  Variables (I : interp) (D : string -> list pval -> option val) (nm : string -> option (list string)).
  Variables (sigs : dict psig) (calls : list (string * string)) (Ds : list expr).
  Hypothesis H : host I.
  Hypothesis A : agree I D sigs.
  Hypothesis DEF : Forall (defines I (globals calls)) Ds.

  Lemma fun_sound f s d s' g vals : parse_fun sigs f s = (Ok d, s') -> incl (s_decls s') Ds -> incl (s_calls s') calls ->
    tidy d = true -> covered sigs (map snd calls) f -> dget sigs (f_name f) = Some g -> Forall2 vty (g_args g) vals ->
    exists t b qs, d = Node KFnDeclRec t (Atom (PStr (f_name f)) :: b :: qs) /\ Permutation (map vname qs) (f_params f) /\ In d Ds /\
      exists v, vty (g_ret g) v /\
        (forall ws, Permutation (combine (f_params f) vals) (combine (map vname qs) ws) -> List.length ws = List.length qs -> i_call I (f_name f) ws = Some v) /\
        (forall w, pcall true D nm f vals = Some w -> w = v).
  Proof.
    intros E I1 I2 TD (g' & n & Dg & RB & ND & L & AP & SC) Dg' F. rewrite Dg' in Dg. injection Dg as <-.
    unfold parse_fun in E. rewrite Dg' in E. apply bindM_ok in E as (vs & s1 & E1 & E). apply lift_ok in E1 as [E1 ->].
    apply bindM_ok in E as (b & s2 & E2 & E). apply bindM_ok in E as (d' & s3 & E3 & E). apply lift_ok in E3 as [E3 ->]. injection E as -> <-. cbn [s_decls s_calls] in *.
    apply parse_body_ok in E2 as (n' & RB' & E2). rewrite RB in RB'. injection RB' as <-.
    unfold mkFn in E3. apply bindR_ok in E3 as (ts & _ & E3). injection E3 as <-.
    eexists _, _, _. split; [reflexivity|]. split; [rewrite <- (params_vnames _ _ _ E1 L); apply Permutation_map, sort_perm|].
    assert (IN : In (Node KFnDeclRec (TFn (g_ret g :: ts)) (Atom (PStr (f_name f)) :: unobj b :: sort_vars vs)) Ds) by (apply I1, in_or_app; right; left; reflexivity). split; [exact IN|].
    cbn [tidy forallb] in TD. rewrite !andb_true_iff in TD. destruct TD as [(_ & T1 & _) T2].
    assert (J1 : incl (s_decls s2) Ds) by (intros x X; apply I1, in_or_app; now left).
    assert (LV : List.length (f_params f) = List.length vals) by (rewrite L; exact (F2_len _ _ _ F)).
    destruct (bind_len (f_params f) vals none_env LV) as (rp & BP). destruct (bind_len (f_params f) vals (globals calls) LV) as (rI & BI).
    assert (EO : env_ok calls (combine (f_params f) (g_args g)) rp rI).
    { eapply env_bound; eauto. intros x S1. split; [reflexivity|]. unfold globals. now rewrite S1. }
    destruct (P_val I D nm sigs calls Ds n _ rp rI _ _ _ (parse_sound I D nm sigs calls Ds H A DEF n) E2 J1 I2 EO T1 SC) as (T & v & t1 & t2 & e1 & y & p).
    assert (T = g_ret g) by (destruct (unobj b); [discriminate|]; cbn in T2, t2; apply ty_eqb_eq in T2; congruence). subst T.
    exists v. split; [exact y|]. split.
    - intros ws Pm LW. destruct (bind_len (map vname (sort_vars vs)) ws (globals calls)) as (r2 & B2); [rewrite map_length; now symmetry|].
      pose proof (proj1 (Forall_forall _ _) DEF _ IN) as DF. cbn [defines] in DF. rewrite (DF _ _ B2), <- e1. apply eval_ext. intros x. symmetry. eapply bind_perm; eauto.
    - intros w W. unfold pcall in W. rewrite BP in W. apply p. eapply pexec_returned; eauto.
  Qed.
End Fun.

(** ** Whole solutions *)
Lemma mono_parse_fun sigs f : mono (parse_fun sigs f).
Proof.
  unfold parse_fun. destruct (dget sigs (f_name f)); [|apply mono_raise]. apply mono_bind; [apply mono_lift|intros vs]. apply mono_bind.
  - unfold parse_body. repeat match goal with |- mono match ?x with _ => _ end => destruct x end; try apply mono_raise; apply mono_parse.
  - intros b. apply mono_bind; [apply mono_lift|]. intros d s. split; cbn; [apply incl_appl|]; apply incl_refl.
Qed.
Lemma mono_parse_funs sigs fs : mono (parse_funs sigs fs).
Proof. induction fs as [|f fs IH]; cbn -[bindM]; [apply mono_ret|]. apply mono_bind; [apply mono_parse_fun|auto]. Qed.
Lemma parse_funs_each sigs fs : forall s s', parse_funs sigs fs s = (Ok tt, s') -> forall f, In f fs ->
  exists s1 d s2, parse_fun sigs f s1 = (Ok d, s2) /\ In d (s_decls s2) /\ grows s2 s'.
Proof.
  induction fs as [|f fs IH]; intros s s' E f' IN; [contradiction|]. cbn -[bindM] in E. apply bindM_ok in E as (d & s1 & E1 & E). destruct IN as [->|IN]; [|eauto].
  exists s, d, s1. split; [exact E1|]. split; [|exact (grows_of _ _ _ _ (mono_parse_funs sigs fs) E)].
  unfold parse_fun in E1. destruct (dget sigs (f_name f')); [|discriminate]. apply bindM_ok in E1 as (vs & s2 & _ & E1). apply bindM_ok in E1 as (b & s3 & _ & E1). apply bindM_ok in E1 as (d' & s4 & _ & E1).
  injection E1 as -> <-. cbn. apply in_or_app. right. now left.
Qed.
Lemma find_fun_in fs x f : find_fun fs x = Some f -> In f fs /\ f_name f = x.
Proof. induction fs as [|g fs IH]; cbn; [discriminate|]. destruct (String.eqb (f_name g) x) eqn:Q; [intros X; injection X as ->; apply String.eqb_eq in Q; auto|intros X; destruct (IH X); auto]. Qed.

Lemma args_vals I ts ps vs : args_rel I ts ps vs -> forall ws, mapO as_val ps = Some ws -> ws = vs /\ Forall2 vty ts vs.
Proof.
  induction 1 as [|t ts p ps v vs R RS IH]; intros ws E; [injection E as <-; auto|]. cbn in E. destruct R as [t v V|r a h g TF HF]; cbn in E; [|discriminate].
  destruct (mapO as_val ps) as [l|]; [|discriminate]. injection E as <-. destruct (IH _ eq_refl) as [-> F]. auto.
Qed.

Section Whole.
  Variables (I : interp) (L : string -> list pval -> option val) (nm : string -> option (list string)).
  Variables (sigs : dict psig) (target : list pfun) (s0 s : pst).
  Hypothesis H : host I.
  Hypothesis E : parse_funs sigs target s0 = (Ok tt, s).
  Hypothesis DEF : Forall (defines I (globals (s_calls s))) (s_decls s).
  Hypothesis TD : forallb tidy (s_decls s) = true.
  Hypothesis COV : Forall (covered sigs (map snd (s_calls s))) target.
  Hypothesis TOT : forall f g vs, dget sigs f = Some g -> Forall2 (arg_ty I) (g_args g) vs -> exists v, i_call I f vs = Some v /\ vty (g_ret g) v.
  Hypothesis LIB : forall f g ps vs v, find_fun target f = None -> dget sigs f = Some g -> args_rel I (g_args g) ps vs -> L f ps = Some v -> i_call I f vs = Some v.

  Definition in_order (f : pfun) : Prop := forall g vs, dget sigs (f_name f) = Some g -> params (f_params f) (g_args g) = Ok vs -> sort_vars vs = vs.
  Hypothesis ORD : Forall in_order target.

  Lemma run_sound : forall fuel, agree I (run fuel target L nm) sigs.
  Proof.
    induction fuel as [|n IH]; split; auto.
    - intros f g ps vs v Dg AR R. cbn [run] in R. destruct (find_fun target f) as [pf|] eqn:FF; [discriminate|eauto].
    - intros f g ps vs v Dg AR R. cbn [run] in R. destruct (find_fun target f) as [pf|] eqn:FF; [|eauto].
      destruct (mapO as_val ps) as [ws|] eqn:MW; [|discriminate]. destruct (args_vals _ _ _ _ AR _ MW) as [-> F]. destruct (find_fun_in _ _ _ FF) as [IN <-].
      destruct (parse_funs_each _ _ _ _ E pf IN) as (s1 & d & s2 & E1 & Dd & G1 & G2).
      pose proof (proj1 (Forall_forall _ _) COV _ IN) as CV.
      assert (Td : tidy d = true) by (apply (proj1 (forallb_forall _ _) TD), G1, Dd).
      destruct (fun_sound I _ nm sigs (s_calls s) (s_decls s) H IH DEF pf s1 d s2 g vs E1 G1 G2 Td CV Dg F) as (t & b & qs & Ed & Pm & _ & x & _ & CALL & PY).
      rewrite (PY v R). apply CALL.
      + pose proof (proj1 (Forall_forall _ _) ORD _ IN) as O. unfold parse_fun in E1. rewrite Dg in E1. apply bindM_ok in E1 as (vs' & s3 & E1 & E2). apply lift_ok in E1 as [E1 ->].
        apply bindM_ok in E2 as (b' & s4 & _ & E2). apply bindM_ok in E2 as (d' & s5 & E3 & E2). apply lift_ok in E3 as [E3 ->]. injection E2 as -> _. unfold mkFn in E3. apply bindR_ok in E3 as (ts & _ & E3). rewrite Ed in E3. injection E3 as _ _ Q.
        rewrite (O g vs' Dg E1) in Q. subst qs. destruct CV as (g' & e & Dg' & _ & _ & LL & _). rewrite Dg in Dg'. injection Dg' as <-. rewrite (params_vnames _ _ _ E1 LL). apply Permutation_refl.
      + apply Permutation_length in Pm. rewrite map_length in Pm. rewrite Pm. destruct CV as (g' & e & Dg' & _ & _ & LL & _). rewrite Dg in Dg'. injection Dg' as <-. rewrite LL. symmetry. exact (F2_len _ _ _ F).
  Qed.
End Whole.
