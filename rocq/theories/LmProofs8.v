(** The predicate made from a solution, and sorted parameters. *)

From Coq Require Import String List ZArith Bool Lia Permutation.
From Verif Require Import Ast IrProofs IrProofs3 Dict Semantics OptProofs2 SmtPrelude SmtProofs RktModel RktProofs ListOps LibSem ObjModel Properties_Rkt Properties_Obj LmModel LmSem LmProofs LmProofs2 LmProofs3 LmProofs4.
Import ListNotations.
Local Open Scope string_scope.
Local Open Scope list_scope.

Lemma sort_id l : ordered (map vname l) = true -> sort_vars l = l.
Proof.
  induction l as [|v l IH]; intros O; [reflexivity|]. cbn [sort_vars]. destruct l as [|w l]; [reflexivity|].
  cbn [map ordered] in O. apply andb_true_iff in O as [O1 O2]. rewrite (IH O2). cbn [insert]. now rewrite O1.
Qed.
Lemma ordered_in_order sigs gs f : covered sigs gs f -> ordered (f_params f) = true -> in_order sigs f.
Proof.
  intros (g & e & Dg & _ & _ & L & _) O g' vs Dg' E. rewrite Dg in Dg'. injection Dg' as <-. apply sort_id. now rewrite (params_vnames _ _ _ E L).
Qed.

Lemma smem_is x l : smem x l = true -> In x l.
Proof. induction l as [|y l IH]; cbn; [discriminate|]. intros E. apply orb_true_iff in E as [E|E]; [left; symmetry; now apply String.eqb_eq|auto]. Qed.
Lemma bind_snoc ps : forall vs r o w, List.length ps = List.length vs -> bind (ps ++ [o]) (vs ++ [w]) r = bind ps vs (upd r o w).
Proof. induction ps as [|p ps IH]; intros [|v vs] r o w L; try discriminate; [reflexivity|]. cbn. rewrite IH; [reflexivity|cbn in L; congruence]. Qed.

Section Ps.
  Variables (I : interp) (D : string -> list pval -> option val) (nm : string -> option (list string)).
  Variables (sigs : dict psig) (calls : list (string * string)) (Ds : list expr).
  Hypothesis H : host I.
  Hypothesis A : agree I D sigs.
  Hypothesis DEF : Forall (defines I (globals calls)) Ds.

  Lemma ps_sound f s d s' g vals o to p : parse_fun sigs f s = (Ok d, s') -> incl (removelast (s_decls s')) Ds -> incl (s_calls s') calls ->
    tidy d = true -> covered sigs (map snd calls) f -> dget sigs (f_name f) = Some g -> Forall2 vty (g_args g) vals ->
    ~ In o (f_params f) -> ~ In o (map snd calls) -> ps_decl d (mkVar o to) = Ok p -> defines I (globals calls) p ->
    exists t b qs, p = Node KFnDeclRec t (Atom (PStr (f_name f ++ "_ps")) :: b :: qs ++ [mkVar o to]) /\ Permutation (map vname qs) (f_params f) /\
      forall ws w, Permutation (combine (f_params f) vals) (combine (map vname qs) ws) -> List.length ws = List.length qs ->
        exists v, vty (g_ret g) v /\ i_call I (f_name f ++ "_ps") (ws ++ [w]) = Some (VBool (val_eqb w v)) /\
          (forall w', pcall true D nm f vals = Some w' -> w' = v).
  Proof.
    intros E I1 I2 TD (g' & n & Dg & RB & ND & L & AP & SC) Dg' F No Nc EP DP. rewrite Dg' in Dg. injection Dg as <-.
    unfold parse_fun in E. rewrite Dg' in E. apply bindM_ok in E as (vs & s1 & E1 & E). apply lift_ok in E1 as [E1 ->].
    apply bindM_ok in E as (b & s2 & E2 & E). apply bindM_ok in E as (d' & s3 & E3 & E). apply lift_ok in E3 as [E3 ->]. injection E as -> <-. cbn [s_decls s_calls] in *. rewrite removelast_last in I1.
    apply parse_body_ok in E2 as (n' & RB' & E2). rewrite RB in RB'. injection RB' as <-.
    unfold mkFn in E3. apply bindR_ok in E3 as (ts & _ & E3). injection E3 as <-.
    cbn [ps_decl] in EP. apply bindR_ok in EP as (q & Q & EP). cbn in Q. injection Q as <-. unfold mkFn in EP. apply bindR_ok in EP as (ts' & _ & EP). injection EP as <-.
    eexists _, _, _. split; [reflexivity|]. split; [rewrite <- (params_vnames _ _ _ E1 L); apply Permutation_map, sort_perm|].
    cbn [tidy forallb] in TD. rewrite !andb_true_iff in TD. destruct TD as [(_ & T1 & _) T2].
    assert (LV : List.length (f_params f) = List.length vals) by (rewrite L; exact (F2_len _ _ _ F)).
    destruct (bind_len (f_params f) vals none_env LV) as (rp & BP).
    assert (SM : smem o (map snd calls) = false) by (destruct (smem o (map snd calls)) eqn:Q; [apply smem_is in Q; tauto|reflexivity]).
    assert (VAL : forall G rI, (forall x, smem x (map snd calls) = true -> G x = Some (VFn x)) -> bind (f_params f) vals G = Some rI -> exists v, vty (g_ret g) v /\ eval I rI (erase (unobj b)) = Some v /\ forall w, pvalue true D nm rp n = Some w -> w = v).
    { intros G rI HG BI. assert (EO : env_ok calls (combine (f_params f) (g_args g)) rp rI).
      { eapply env_bound; eauto. intros x S1. split; [reflexivity|auto]. }
      destruct (P_val I D nm sigs calls Ds n _ rp rI _ _ _ (parse_sound I D nm sigs calls Ds H A DEF n) E2 I1 I2 EO T1 SC) as (T & v & t1 & t2 & e1 & y & pp).
      assert (T = g_ret g) by (destruct (unobj b); [discriminate|]; cbn in T2, t2; apply ty_eqb_eq in T2; congruence). subst T. exists v. auto. }
    intros ws w Pm LW.
      assert (LW' : List.length (map vname (sort_vars vs)) = List.length ws) by (rewrite map_length; now symmetry).
      destruct (bind_len (map vname (sort_vars vs)) ws (upd (globals calls) o w) LW') as (r2 & B2).
      destruct (bind_len (f_params f) vals (upd (globals calls) o w) LV) as (rJ & BJ).
      destruct (VAL (upd (globals calls) o w) rJ) as (v' & y' & e' & pp'); [|exact BJ|].
      { intros x X. unfold upd. destruct (String.eqb_spec o x); [subst; congruence|unfold globals; now rewrite X]. }
      assert (XE : forall x, rJ x = r2 x) by (intros x; eapply bind_perm; eauto).
      cbn [defines] in DP. rewrite map_app in DP. cbn [map vname mkVar] in DP. rewrite (DP (ws ++ [w]) r2); [|rewrite bind_snoc by exact LW'; exact B2].
      assert (OV : r2 o = Some w).
      { rewrite <- XE, (bind_get _ _ _ _ o BJ). destruct (dget (combine (f_params f) vals) o) as [z|] eqn:Z; [|unfold upd; now rewrite String.eqb_refl]. exfalso. apply No.
        apply dget_in_iff in Z; [|rewrite combine_fst by exact LV; exact ND]. exact (in_combine_l _ _ _ _ Z). }
      assert (EB : eval I r2 (erase (unobj b)) = Some v').
      { rewrite <- e'. apply eval_ext. intros x. now rewrite XE. }
      unfold mkVar. cbn [erase map is_call is_decl andb eval mapO op_val]. rewrite OV, EB. cbn [op_val].
      exists v'. split; [exact y'|]. split; [reflexivity|]. intros w' W. unfold pcall in W. rewrite BP in W. apply pp'. eapply pexec_returned; eauto.
  Qed.
End Ps.
