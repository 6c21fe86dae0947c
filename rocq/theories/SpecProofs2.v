(** Specialised copies of functions and candidates compute what the originals do. *)

From Coq Require Import String List ZArith Bool Lia.
From Verif Require Import Ast Semantics Dict IrModel IrProofs IrProofs3 IrProofs5 TopoModel SpecModel SpecProofs.
Import ListNotations.
Local Open Scope string_scope.
Local Open Scope list_scope.

(* ------------------------------------------------------------------ *)
(** ** rewriting a well-formed regular expression does not raise *)

Lemma regular_node P FO HO CV e : regular P FO HO CV e -> exists k t args, e = Node k t args.
Proof. destruct 1; unfold mkVar; eauto. Qed.

Lemma filter_body_ok P FO HO (CV : string -> Prop) new old (ic : option string) (HIC : forall q, CV q -> ic <> None) :
  forall e, wf e -> regular P FO HO CV e -> exists e', filter_body new old ic e = Ok e' /\ arg_ok e e'.
Proof.
  induction e as [a|k t args IH] using expr_ind'; intros W R; [now apply wf_not_atom in W|].
  assert (MAP : forall l, Forall (fun a => In a args) l -> Forall (regular P FO HO CV) l ->
             exists l', mapR (filter_body new old ic) l = Ok l' /\ Forall2 arg_ok l l').
  { intros l IN RL. apply mapR_ok. pose proof (wf_args W) as WA. rewrite Forall_forall in *. intros a Ha.
    apply IH; auto. destruct (WA a (IN a Ha)) as [|[x ->]]; auto.
    destruct (regular_node _ _ _ _ _ (RL _ Ha)) as (? & ? & ? & ?). discriminate. }
  assert (WFS : forall l l', Forall (fun a => In a args) l -> Forall (regular P FO HO CV) l -> Forall2 arg_ok l l' -> Forall wf l').
  { intros l l' IN RL F2. eapply Forall2_wf; [|exact F2]. pose proof (wf_args W) as WA. rewrite Forall_forall in *. intros a Ha.
    destruct (WA a (IN a Ha)) as [|[x ->]]; auto.
    destruct (regular_node _ _ _ _ _ (RL _ Ha)) as (? & ? & ? & ?). discriminate. }
  assert (CALLED : forall f t0 l l', Forall (fun a => In a args) l -> Forall (regular P FO HO CV) l -> Forall2 arg_ok l l' ->
             wf (Node KCall t0 (Atom (PStr f) :: l'))).
  { intros f t0 l l' IN RL F2. eapply wf_Call; [|reflexivity]. eapply WFS; eauto. }
  inversion R as [x t0 NP|t0 args0|k0 t0 f args0 CK HF PL|k0 t0 f pre q ts post CK HH PQ PL PM|t0 q ts args0 HC PQ RA|t0 x tx e1 e2 NP R1 R2|k0 t0 args0 OK RA]; subst.
  - exists (Node KVar t [Atom (PStr x)]). split; [reflexivity|]. split; auto.
  - exists (Node KLit t args). split; [reflexivity|]. split; auto.
  - rewrite filter_body_call by auto. rewrite (drop_plain P FO HO CV) by auto.
    destruct (MAP args0) as (l' & -> & F2); eauto using plain_regular.
    { apply Forall_forall. intros; now right. }
    eexists. split; [reflexivity|]. split; [reflexivity|]. apply (CALLED _ _ args0); eauto using plain_regular.
    apply Forall_forall. intros; now right.
  - rewrite filter_body_call by auto. rewrite (drop_ho P FO HO CV) by auto.
    assert (INC : Forall (fun a => In a (Atom (PStr f) :: pre ++ mkVar q (TFn ts) :: post)) (pre ++ post)).
    { apply Forall_forall. intros a Ha. right. apply in_app_or in Ha. apply in_or_app. destruct Ha; [now left|right; now right]. }
    assert (RG : Forall (regular P FO HO CV) (pre ++ post)) by (apply Forall_app; split; eapply plain_regular; eauto).
    destruct (MAP (pre ++ post)) as (l' & -> & F2); auto.
    eexists. split; [reflexivity|]. split; [reflexivity|]. eapply CALLED; eauto.
  - cbn [filter_body].
    destruct (MAP args0) as (l' & -> & F2); auto.
    { apply Forall_forall. intros; now right. }
    cbn [bindR]. destruct ic as [g|] eqn:E; [|now destruct (HIC q HC)].
    eexists. split; [reflexivity|]. split; [reflexivity|]. apply (CALLED _ _ args0); auto.
    apply Forall_forall. intros; now right.
  - cbn [filter_body mapR]. change (filter_body new old ic (mkVar x tx)) with (Ok (mkVar x tx)). cbn [bindR].
    destruct (MAP [e1; e2]) as (l' & M & F2); [apply Forall_forall; intros; now right|auto|].
    cbn [mapR] in M. destruct (filter_body new old ic e1) as [e1'|]; [|discriminate]. cbn [bindR] in M |- *.
    destruct (filter_body new old ic e2) as [e2'|]; [|discriminate]. cbn [bindR] in M |- *. injection M as <-.
    destruct (@rebuild_wf KLet t _ [mkVar x tx; e1'; e2'] W) as [E WE].
    { constructor; [|exact F2]. split; [reflexivity|constructor]. }
    rewrite E. eexists. split; [reflexivity|]. split; auto.
  - rewrite filter_body_op by auto. destruct (MAP args) as (l' & -> & F2); auto.
    { apply Forall_forall; auto. }
    cbn [bindR]. destruct (rebuild_wf W F2) as [E WE]. rewrite E. eexists. split; [reflexivity|]. split; auto.
Qed.

(** the result of a pass that drops all function arguments has none left *)
Lemma arg_ok_plain P FO HO CV a b : plain_arg P FO HO CV a -> arg_ok a b -> regular P FO HO CV b -> plain_arg P FO HO CV b.
Proof. intros H A R. inversion H; subst. apply (plain_intro _ _ _ _ b t); auto. rewrite <- (arg_ok_type _ _ A). assumption. Qed.

Definition any_fn : string -> Prop := fun _ => True.
Definition no_ho : string -> nat -> string -> Prop := fun _ _ _ => False.
Definition no_cv : string -> Prop := fun _ => False.

Lemma filter_body_ok0 P FO HO new old e : wf e -> regular P FO HO no_cv e ->
  exists e', filter_body new old None e = Ok e' /\ arg_ok e e'.
Proof. intros W R. apply (filter_body_ok P FO HO no_cv); auto. Qed.

Lemma filter_body_plain P FO HO new old : forall e, wf e -> regular P FO HO no_cv e ->
  forall e', filter_body new old None e = Ok e' -> regular P any_fn no_ho no_cv e'.
Proof.
  induction e as [a|k t args IH] using expr_ind'; intros W R e' F; [now apply wf_not_atom in W|].
  assert (WI : forall a, In a args -> regular P FO HO no_cv a -> wf a).
  { intros a Ha RA. pose proof (wf_args W) as WA. rewrite Forall_forall in WA.
    destruct (WA a Ha) as [|[x ->]]; auto. destruct (regular_node _ _ _ _ _ RA) as (? & ? & ? & ?). discriminate. }
  assert (MAP : forall l l', Forall (fun a => In a args) l -> Forall (regular P FO HO no_cv) l ->
             mapR (filter_body new old None) l = Ok l' -> Forall (regular P any_fn no_ho no_cv) l').
  { intros l l' IN RL M. apply mapR_ok_inv in M. rewrite Forall_forall in IH.
    induction M as [|a b l l' FB M IHM]; constructor; inversion IN; inversion RL; subst; eauto. }
  assert (MAPP : forall l l', Forall (fun a => In a args) l -> Forall (plain_arg P FO HO no_cv) l ->
             mapR (filter_body new old None) l = Ok l' -> Forall (plain_arg P any_fn no_ho no_cv) l').
  { intros l l' IN RL M. pose proof (MAP l l' IN (plain_regular _ _ _ _ _ RL) M) as RL'. apply mapR_ok_inv in M.
    induction M as [|a b l l' FB M IHM]; [constructor|].
    inversion IN as [|? ? INa INl]; subst. inversion RL as [|? ? Pa Pl]; subst. inversion RL' as [|? ? Ra Rl]; subst.
    constructor; [|now apply IHM]. inversion Pa as [? t0 Rega Ta Fa]; subst.
    destruct (filter_body_ok0 P FO HO new old a (WI a INa Rega) Rega) as (b' & E & A).
    rewrite FB in E. injection E as <-. rewrite (arg_ok_type _ _ A) in Ta. apply (plain_intro _ _ _ _ b t0); auto. }
  inversion R as [x t0 NP|t0 args0|k0 t0 f args0 CK HF PL|k0 t0 f pre q ts post CK HH PQ PL PM|t0 q ts args0 HC PQ RA|t0 x tx e1 e2 NP R1 R2|k0 t0 args0 OK RA]; subst.
  - cbn in F. injection F as <-. now constructor.
  - cbn in F. injection F as <-. now constructor.
  - rewrite filter_body_call in F by auto. rewrite (drop_plain P FO HO no_cv) in F by auto.
    destruct (mapR _ args0) as [l'|] eqn:M; [|discriminate]. cbn in F. injection F as <-.
    apply reg_fo; [now left|exact I|]. apply (MAPP args0); auto. apply Forall_forall; intros; now right.
  - rewrite filter_body_call in F by auto. rewrite (drop_ho P FO HO no_cv) in F by auto.
    destruct (mapR _ (pre ++ post)) as [l'|] eqn:M; [|discriminate]. cbn in F. injection F as <-.
    apply reg_fo; [now left|exact I|]. apply (MAPP (pre ++ post)); auto; [|apply Forall_app; auto].
    apply Forall_forall. intros a Ha. right. apply in_app_or in Ha. apply in_or_app. destruct Ha; [now left|right; now right].
  - destruct HC.
  - cbn [filter_body mapR] in F. change (filter_body new old None (mkVar x tx)) with (Ok (mkVar x tx)) in F. cbn [bindR] in F.
    destruct (filter_body new old None e1) as [e1'|] eqn:F1; [|discriminate]. cbn [bindR] in F.
    destruct (filter_body new old None e2) as [e2'|] eqn:F2; [|discriminate]. cbn [bindR] in F.
    assert (RR : Forall (regular P any_fn no_ho no_cv) [e1'; e2']).
    { apply (MAP [e1; e2]); [apply Forall_forall; intros; now right|auto|]. cbn. now rewrite F1, F2. }
    inversion RR as [|? ? A1 RR']; subst. inversion RR' as [|? ? A2 _]; subst.
    destruct (filter_body_ok0 P FO HO new old e1) as (b1 & E1 & O1); auto with datatypes.
    destruct (filter_body_ok0 P FO HO new old e2) as (b2 & E2 & O2); auto with datatypes.
    rewrite F1 in E1. rewrite F2 in E2. injection E1 as <-. injection E2 as <-.
    destruct (@rebuild_wf KLet t _ [mkVar x tx; e1'; e2'] W) as [E WE].
    { constructor; [split; [reflexivity|constructor]|]. repeat constructor; auto. }
    rewrite E in F. injection F as <-. now constructor.
  - rewrite filter_body_op in F by auto. destruct (mapR _ args) as [l'|] eqn:M; [|discriminate]. cbn [bindR] in F.
    assert (F2 : Forall2 arg_ok args l').
    { destruct (@mapR_ok _ _ (filter_body new old None) arg_ok args) as (l'' & M' & F2).
      - rewrite Forall_forall in *. intros a Ha. apply (filter_body_ok0 P FO HO); auto.
      - rewrite M in M'. now injection M' as <-. }
    destruct (rebuild_wf W F2) as [E' _]. rewrite E' in F. injection F as <-.
    apply reg_op; auto. apply (MAP args); auto. apply Forall_forall; auto.
Qed.

(* ------------------------------------------------------------------ *)
(** ** definitions as a table *)

(** the entry a declaration makes in a table of definitions *)
Definition entry (d : expr) : option (string * fndef) :=
  match d with
  | Node k (TFn (r :: _)) (Atom (PStr n) :: body :: ps) =>
      Some (n, {| fn_params := ps; fn_body := body; fn_kind := k; fn_ret := r |})
  | _ => None
  end.

(** [T'] has all definitions of [T], and may define names that mean nothing in [base] *)
Definition extends (base : interp) (T T' : dict fndef) : Prop :=
  (forall f d, dget T f = Some d -> dget T' f = Some d) /\
  (forall f, dget T f = None -> dget T' f <> None -> forall vs, i_call base f vs = None).

(** [f'] computes in [T'] what [f] computes in [T] when its argument number [pos] is
    the function [g] *)
Definition copy_ok (base : interp) (T T' : dict fndef) (pos : nat) (g f f' : string) : Prop :=
  forall n a b v, List.length a = pos ->
    table_call base T n f (a ++ VFn g :: b) = Some v -> table_call base T' n f' (a ++ b) = Some v.

Lemma extends_le base T T' n : extends base T T' -> interp_le (table_interp base T n) (table_interp base T' n).
Proof.
  intros [X Y]. repeat split; auto. cbn [table_interp i_call]. induction n as [|n IH]; intros f vs v E; [discriminate|].
  cbn [table_call] in *. destruct (dget T f) as [d|] eqn:D.
  - rewrite (X _ _ D). destruct (bind_params (fn_params d) vs) as [r|]; [|discriminate].
    revert E. apply eval_le. repeat split; auto.
  - destruct (dget T' f) as [d|] eqn:D'; auto. rewrite (Y f D) in E; congruence.
Qed.

(** one function parameter, called [p]; the others are ordinary *)
Definition plain_param (p : string) (e : expr) : Prop := exists x t, e = mkVar x t /\ x <> p /\ is_fn_ty t = false.

Lemma filter_args_plain p l : Forall (plain_param p) l -> filter_args l = Ok l.
Proof. induction 1 as [|a l (x & t & -> & N & F) _ IH]; [reflexivity|]. cbn. rewrite F, IH. reflexivity. Qed.

Lemma filter_args_one p ts pre post : Forall (plain_param p) pre -> Forall (plain_param p) post ->
  filter_args (pre ++ mkVar p (TFn ts) :: post) = Ok (pre ++ post).
Proof.
  intros A B. induction A as [|a l (x & t & -> & N & F) _ IH]; cbn.
  - now rewrite (filter_args_plain p).
  - rewrite F, IH. reflexivity.
Qed.

Lemma bind_one p ts pre post : Forall (plain_param p) pre -> Forall (plain_param p) post ->
  forall vs r, bind_params (pre ++ mkVar p (TFn ts) :: post) vs = Some r ->
  exists a w b r', vs = a ++ w :: b /\ List.length a = List.length pre /\
    bind_params (pre ++ post) (a ++ b) = Some r' /\ r p = Some w /\ forall x, x <> p -> r x = r' x.
Proof.
  intros A B. induction A as [|a l (x & t & -> & N & F) _ IH]; intros vs r E.
  - destruct vs as [|w b]; [discriminate|]. cbn in E. destruct (bind_params post b) as [r'|] eqn:D; [|discriminate]. injection E as <-.
    exists [], w, b, r'. repeat split; auto.
    + unfold upd. now rewrite String.eqb_refl.
    + intros x X. unfold upd. destruct (String.eqb p x) eqn:Q; auto. apply String.eqb_eq in Q. congruence.
  - destruct vs as [|w0 vs]; [discriminate|]. cbn in E.
    destruct (bind_params (l ++ mkVar p (TFn ts) :: post) vs) as [r0|] eqn:D; [|discriminate]. injection E as <-.
    destruct (IH _ _ D) as (a & w & b & r' & -> & L & D' & RP & AG).
    exists (w0 :: a), w, b, (upd r' x w0). cbn. rewrite D', L. repeat split; auto.
    + unfold upd. destruct (String.eqb x p) eqn:Q; auto. apply String.eqb_eq in Q. congruence.
    + intros y Y. unfold upd. destruct (String.eqb x y); auto.
Qed.

Lemma app_mid_inj A (a c b d : list A) (x y : A) : a ++ x :: b = c ++ y :: d -> List.length a = List.length c -> a = c /\ x = y /\ b = d.
Proof.
  revert c. induction a as [|h a IH]; intros [|k c] E L; try discriminate; cbn in *.
  - injection E as -> ->. auto.
  - injection E as -> E. injection L as L. destruct (IH c E L) as (-> & -> & ->). auto.
Qed.

(** a function that calls its function parameter [p], or passes it to itself *)
Lemma copy_direct base T T' f g d p ts pre post b' :
  extends base T T' ->
  dget T f = Some d -> fn_params d = pre ++ mkVar p (TFn ts) :: post ->
  Forall (plain_param p) pre -> Forall (plain_param p) post ->
  regular (fun x => x = p) (fun h => h <> f) (fun h n q => h = f /\ n = List.length pre /\ q = p) (fun q => q = p) (fn_body d) ->
  forall new, filter_body new f (Some g) (fn_body d) = Ok b' ->
  (exists d', dget T' new = Some d' /\ fn_params d' = pre ++ post /\ fn_body d' = b') ->
  copy_ok base T T' (List.length pre) g f new.
Proof.
  intros X D PS PA PB R new F (d' & D' & PS' & B') n. induction n as [|n IH]; intros a b v L E; [discriminate|].
  cbn [table_call] in *. rewrite D in E. rewrite D'. rewrite PS in E. rewrite PS'.
  destruct (bind_params (pre ++ mkVar p (TFn ts) :: post) (a ++ VFn g :: b)) as [r|] eqn:BP; [|discriminate].
  destruct (bind_one p ts pre post PA PB _ _ BP) as (a0 & w & b0 & r' & EQ & L0 & BP' & RP & AG).
  apply app_mid_inj in EQ; [|congruence]. destruct EQ as (<- & <- & <-). rewrite BP', B'.
  destruct (extends_le base T T' n X) as (XD & XM & XC).
  apply (filter_body_sound (table_interp base T n) (table_interp base T' n) (fun x => x = p) (fun h => h <> f)
           (fun h m q => h = f /\ m = List.length pre /\ q = p) (fun q => q = p) (fun _ => g) new f (Some g))
    with (e := fn_body d) (r := r); auto.
  - intros h vs w NF C. unfold rn. destruct (String.eqb f h) eqn:Q; [apply String.eqb_eq in Q; congruence|auto].
  - intros h q a1 b1 w (-> & LP & ->) C. unfold rn. rewrite String.eqb_refl. cbn [table_interp i_call] in *. apply IH; auto.
  - split; [auto|]. intros q ->. exact RP.
Qed.

(** a function that passes its function parameter to [fn] or to itself *)
Lemma copy_caller base T T' fn fn' fpos t g d p ts pre post b1 b2 :
  extends base T T' ->
  copy_ok base T T' fpos g fn fn' -> fn <> t -> fn' <> t ->
  dget T t = Some d -> fn_params d = pre ++ mkVar p (TFn ts) :: post ->
  Forall (plain_param p) pre -> Forall (plain_param p) post -> wf (fn_body d) ->
  regular (fun x => x = p) (fun h => h <> fn /\ h <> t)
    (fun h n q => (h = fn /\ n = fpos \/ h = t /\ n = List.length pre) /\ q = p) no_cv (fn_body d) ->
  forall new, filter_body fn' fn None (fn_body d) = Ok b1 -> filter_body new t None b1 = Ok b2 ->
  (exists d', dget T' new = Some d' /\ fn_params d' = pre ++ post /\ fn_body d' = b2) ->
  copy_ok base T T' (List.length pre) g t new.
Proof.
  intros X CK NE NE' D PS PA PB W R new F1 F2 (d' & D' & PS' & B') n. induction n as [|n IH]; intros a b v L E; [discriminate|].
  cbn [table_call] in *. rewrite D in E. rewrite D'. rewrite PS in E. rewrite PS'.
  destruct (bind_params (pre ++ mkVar p (TFn ts) :: post) (a ++ VFn g :: b)) as [r|] eqn:BP; [|discriminate].
  destruct (bind_one p ts pre post PA PB _ _ BP) as (a0 & w & b0 & r' & EQ & L0 & BP' & RP & AG).
  apply app_mid_inj in EQ; [|congruence]. destruct EQ as (<- & <- & <-). rewrite BP', B'.
  destruct (extends_le base T T' n X) as (XD & XM & XC).
  set (J := {| i_div := i_div base; i_mod := i_mod base;
               i_call := fun h vs => if String.eqb t h then table_call base T' n new vs else table_call base T' n h vs |}).
  assert (S1 : eval J r b1 = Some v).
  { apply (filter_body_sound (table_interp base T n) J (fun x => x = p) (fun h => h <> fn /\ h <> t)
           (fun h n q => (h = fn /\ n = fpos \/ h = t /\ n = List.length pre) /\ q = p) no_cv (fun _ => g) fn' fn None)
    with (e := fn_body d) (r := r); auto.
    - intros h vs w [N1 N2] C. unfold rn. destruct (String.eqb fn h) eqn:Q; [apply String.eqb_eq in Q; congruence|].
      cbn. destruct (String.eqb t h) eqn:Q'; [apply String.eqb_eq in Q'; congruence|]. now apply XC.
    - intros h q a1 b1' w [[[-> LP]|[-> LP]] ->] C; unfold rn; cbn [J i_call].
      + rewrite String.eqb_refl. destruct (String.eqb t fn') eqn:Q; [apply String.eqb_eq in Q; congruence|]. now apply CK.
      + destruct (String.eqb fn t) eqn:Q; [apply String.eqb_eq in Q; congruence|]. rewrite String.eqb_refl. now apply IH.
    - intros q [].
    - split; [auto|]. intros q ->. exact RP. }
  apply (filter_body_sound J (table_interp base T' n) (fun x => x = p) any_fn no_ho no_cv (fun _ => g) new t None)
    with (e := b1) (r := r); auto.
  - intros h vs w _ C. unfold rn. cbn [J i_call] in C. destruct (String.eqb t h); auto.
  - intros h q a1 b1' w [].
  - intros q [].
  - eapply filter_body_plain; eauto.
  - split; [auto|]. intros q ->. exact RP.
Qed.
