(** Lemmas about reading solutions. *)

From Coq Require Import String List ZArith Bool Lia.
From Verif Require Import Ast Dict Semantics SmtPrelude SmtProofs RktModel RktProofs ListOps LibSem ObjModel Properties_Rkt Properties_Obj LmModel LmSem.
Import ListNotations.
Local Open Scope string_scope.
Local Open Scope list_scope.
Local Open Scope Z_scope.

Section NodeInd.
  Variable P : pnode -> Prop.
  Definition optP (o : option pnode) : Prop := match o with Some n => P n | None => True end.
  Hypothesis HName : forall x t, P (NName x t).
  Hypothesis HInt : forall z, P (NInt z).
  Hypothesis HOp : forall op a b, P a -> P b -> P (NOp op a b).
  Hypothesis HUnary : forall op a, P a -> P (NUnary op a).
  Hypothesis HList : forall l t, Forall P l -> P (NList l t).
  Hypothesis HCond : forall c a b, P c -> P a -> P b -> P (NCond c a b).
  Hypothesis HCmp : forall l ops, Forall P l -> P (NCmp l ops).
  Hypothesis HIndex : forall a b, P a -> P b -> P (NIndex a b).
  Hypothesis HSlice : forall b s e t, P b -> optP s -> optP e -> optP t -> P (NSlice b s e t).
  Hypothesis HCall : forall f l k t, Forall P l -> P (NCall f l k t).
  Hypothesis HMethod : P NMethod.
  Hypothesis HApply : P NApply.
  Hypothesis HLambda : forall ps t b, P b -> P (NLambda ps t b).
  Hypothesis HOther : P NOther.
  Fixpoint pnode_ind' (n : pnode) : P n :=
    let go := fix go (l : list pnode) : Forall P l :=
      match l with [] => Forall_nil P | x :: r => Forall_cons x (pnode_ind' x) (go r) end in
    let op (o : option pnode) : optP o := match o with Some n => pnode_ind' n | None => Logic.I end in
    match n with
    | NName x t => HName x t
    | NInt z => HInt z
    | NOp o a b => HOp o a b (pnode_ind' a) (pnode_ind' b)
    | NUnary o a => HUnary o a (pnode_ind' a)
    | NList l t => HList l t (go l)
    | NCond c a b => HCond c a b (pnode_ind' c) (pnode_ind' a) (pnode_ind' b)
    | NCmp l ops => HCmp l ops (go l)
    | NIndex a b => HIndex a b (pnode_ind' a) (pnode_ind' b)
    | NSlice b s e t => HSlice b s e t (pnode_ind' b) (op s) (op e) (op t)
    | NCall f l k t => HCall f l k t (go l)
    | NMethod => HMethod
    | NApply => HApply
    | NLambda ps t b => HLambda ps t b (pnode_ind' b)
    | NOther => HOther
    end.
End NodeInd.

(** ** The monad *)
Lemma bindM_ok {A B} (m : M A) (f : A -> M B) s b s' : bindM m f s = (Ok b, s') ->
  exists a s1, m s = (Ok a, s1) /\ f a s1 = (Ok b, s').
Proof. unfold bindM. destruct (m s) as [[a|x] s1]; intros E; [eauto|discriminate]. Qed.
Lemma lift_ok {A} (r : res A) s a s' : lift r s = (Ok a, s') -> r = Ok a /\ s' = s.
Proof. unfold lift. intros E. injection E as -> ->. auto. Qed.
Lemma ret_ok {A} (x : A) s a s' : ret x s = (Ok a, s') -> a = x /\ s' = s.
Proof. unfold ret. intros E. injection E as -> ->. auto. Qed.
Lemma raise_ok {A} x s (a : A) s' : raise x s = (Ok a, s') -> False.
Proof. discriminate. Qed.
Lemma bindR_ok {A B} (m : res A) (f : A -> res B) b : bindR m f = Ok b -> exists a, m = Ok a /\ f a = Ok b.
Proof. destruct m as [a|x]; cbn; intros E; [eauto|discriminate]. Qed.

Ltac mstep :=
  match goal with
  | H : bindM _ _ _ = (Ok _, _) |- _ => apply bindM_ok in H as (? & ? & ? & H)
  | H : lift _ _ = (Ok _, _) |- _ => apply lift_ok in H as (H & ?); subst
  | H : ret _ _ = (Ok _, _) |- _ => apply ret_ok in H as (? & ?); subst
  | H : raise _ _ = (Ok _, _) |- _ => destruct (raise_ok _ _ _ _ H)
  | H : bindR _ _ = Ok _ |- _ => apply bindR_ok in H as (? & ? & H)
  | H : Ok _ = Ok _ |- _ => injection H as H; subst
  | H : Err _ = Ok _ |- _ => discriminate H
  end.

(** ** What is kept *)
Definition grows (s s' : pst) : Prop :=
  incl (s_decls s) (s_decls s') /\ incl (s_calls s) (s_calls s').
Lemma grows_refl s : grows s s.
Proof. split; apply incl_refl. Qed.
Lemma grows_trans a b c : grows a b -> grows b c -> grows a c.
Proof. intros [? ?] [? ?]. split; eapply incl_tran; eauto. Qed.
Definition mono {A} (m : M A) : Prop := forall s, grows s (snd (m s)).
Lemma mono_ret {A} (a : A) : mono (ret a).
Proof. intros s. apply grows_refl. Qed.
Lemma mono_raise {A} x : mono (@raise A x).
Proof. intros s. apply grows_refl. Qed.
Lemma mono_lift {A} (r : res A) : mono (lift r).
Proof. intros s. apply grows_refl. Qed.
Lemma mono_bind {A B} (m : M A) (f : A -> M B) : mono m -> (forall a, mono (f a)) -> mono (bindM m f).
Proof.
  intros P Q s. unfold bindM. specialize (P s). destruct (m s) as [[a|x] s1]; cbn in *; [|exact P].
  eapply grows_trans; [exact P|apply Q].
Qed.
Lemma mono_fn_arg f ps sh e : mono (fn_arg f ps sh e).
Proof.
  intros s. unfold fn_arg. destruct sh.
  - destruct (find_lam (s_lams s) e) as [[n|]|x]; [|destruct ps|]; try apply grows_refl; split; apply incl_appl, incl_refl.
  - split; apply incl_appl, incl_refl.
  - apply grows_refl.
Qed.
#[export] Hint Resolve mono_ret mono_raise mono_lift mono_fn_arg : mono.
Lemma mono_call_args f acts : Forall (fun a => mono (fst a)) acts -> forall tys ps, mono (call_args f acts tys ps).
Proof.
  induction 1 as [|[a sh] acts' P _ IH]; intros tys ps; [apply mono_ret|]. destruct tys as [|t tys]; [apply mono_ret|]. cbn -[bindM].
  apply mono_bind; [exact P|]. intros e. apply mono_bind; [apply mono_lift|]. intros te. destruct (negb _); [apply mono_raise|].
  apply mono_bind; [destruct (is_fn_ty te); auto with mono|]. intros e'. apply mono_bind; [apply IH|auto with mono].
Qed.
Lemma mono_clauses ops : forall acts, Forall mono acts -> mono (clauses ops acts).
Proof.
  induction ops as [|op ops IH]; intros acts F; [apply mono_ret|]. destruct acts as [|a [|b rest]]; try apply mono_raise. cbn -[bindM].
  inversion F as [|? ? Fa Fr]; subst. inversion Fr as [|? ? Fb Fr']; subst.
  apply mono_bind; [exact Fa|]. intros l. apply mono_bind; [exact Fb|]. intros r. apply mono_bind; [apply mono_lift|]. intros c.
  apply mono_bind; [apply IH; exact Fr|auto with mono].
Qed.
Lemma mono_parse sigs n : mono (parse sigs n).
Proof.
  induction n using pnode_ind'; cbn -[bindM]; auto with mono.
  - apply mono_bind; [auto with mono|]. intros []; auto with mono.
  - repeat (apply mono_bind; [now auto with mono|intros]); auto with mono.
  - destruct (String.eqb op "-"); [|auto with mono]. apply mono_bind; auto with mono.
  - repeat (apply mono_bind; [now auto with mono|intros]); auto with mono.
  - apply mono_bind; [apply mono_clauses|auto with mono]. induction H; constructor; auto.
  - repeat (apply mono_bind; [now auto with mono|intros]); auto with mono.
  - apply mono_bind; [auto|intros]. apply mono_bind; [auto with mono|intros].
    apply mono_bind; [destruct s; [apply mono_bind; auto with mono|auto with mono]|intros].
    apply mono_bind; [destruct e; [apply mono_bind; auto with mono|auto with mono]|intros]. auto with mono.
  - destruct (String.eqb f "len").
    + destruct l as [|a [|b r]]; try apply mono_raise. apply mono_bind; [now inversion H|auto with mono].
    + unfold call_node. destruct (dget sigs f); [|auto with mono]. destruct (negb _); [auto with mono|].
      apply mono_bind; [apply mono_call_args; induction H; constructor; auto|]. intros es. apply mono_bind; [auto with mono|]. intros [a|]; [destruct (ty_eqb a _)|]; auto with mono.
  - apply mono_bind; [auto with mono|]. intros [[]|]; auto with mono. destruct ts; auto with mono.
    repeat (apply mono_bind; [now auto with mono|intros]); auto with mono.
Qed.
Lemma grows_of {A} (m : M A) s a s' : mono m -> m s = (Ok a, s') -> grows s s'.
Proof. intros P E. specialize (P s). now rewrite E in P. Qed.
