(** Candidates: calls are renamed, then function arguments are dropped. *)

From Coq Require Import String List ZArith Bool Lia.
From Verif Require Import Ast Semantics Dict IrModel IrProofs IrProofs3 IrProofs5 TopoModel SpecModel SpecProofs SpecProofs2.
Import ListNotations.
Local Open Scope string_scope.
Local Open Scope list_scope.

Lemma replace_call : forall new old g k t f rest, call_kind k ->
  replace_with_in_call new old g (Node k t (Atom (PStr f) :: rest)) =
  (hit <- (if String.eqb f old then any_in_call g rest else Ok false) ;;
   rest' <- mapR (replace_with_in_call new old g) rest ;;
   mkCall (Atom (PStr (if hit then new else f))) t rest').
Proof. intros new old g k t f rest [->| ->]; reflexivity. Qed.

Lemma replace_op : forall new old g k t args, op_kind k = true ->
  replace_with_in_call new old g (Node k t args) = (args' <- mapR (replace_with_in_call new old g) args ;; rebuild k t args').
Proof. intros new old g k t args H. destruct k; try discriminate; reflexivity. Qed.

Lemma any_plain P FO HO CV g l : Forall (plain_arg P FO HO CV) l -> any_in_call g l = Ok false.
Proof. induction 1 as [|a l A _ IH]; [reflexivity|]. cbn. rewrite (plain_is_fn_arg _ _ _ _ _ A). cbn. exact IH. Qed.

Lemma any_ho P FO HO CV g pre q ts post : Forall (plain_arg P FO HO CV) pre -> Forall (plain_arg P FO HO CV) post ->
  any_in_call g (pre ++ mkVar q (TFn ts) :: post) = Ok (String.eqb q g).
Proof.
  intros A B. induction A as [|a l X _ IH]; cbn.
  - destruct (String.eqb q g); [reflexivity|]. now apply (any_plain P FO HO CV).
  - rewrite (plain_is_fn_arg _ _ _ _ _ X). cbn. exact IH.
Qed.

(** the calls with function arguments after one renaming *)
Definition ho_after (new old g : string) (HO : string -> nat -> string -> Prop) : string -> nat -> string -> Prop :=
  fun h n q => (h = new /\ q = g /\ HO old n g) \/ (HO h n q /\ ~ (h = old /\ q = g)).

(** [J] reads [new] as [old] *)
Definition reads_as (I J : interp) (new old : string) : Prop :=
  i_div I = i_div J /\ i_mod I = i_mod J /\ (forall vs, i_call J new vs = i_call I old vs) /\
  forall h vs, h <> new -> i_call J h vs = i_call I h vs.

Lemma mapO_rel A B (f g : A -> option B) l l' : Forall2 (fun a b => g b = f a) l l' -> mapO g l' = mapO f l.
Proof. induction 1 as [|a b l l' E _ IH]; cbn; [reflexivity|]. now rewrite E, IH. Qed.

Lemma replace_ok P FO HO new old g : ~ FO new -> (forall n q, ~ HO new n q) ->
  forall e, wf e -> regular P FO HO no_cv e ->
  exists e', replace_with_in_call new old g e = Ok e' /\ arg_ok e e' /\ regular P FO (ho_after new old g HO) no_cv e' /\
    forall I J, reads_as I J new old -> forall r, eval J r e' = eval I r e.
Proof.
  intros NF NH.
  induction e as [a|k t args IH] using expr_ind'; intros W R; [now apply wf_not_atom in W|].
  set (Q := fun e e' => arg_ok e e' /\ regular P FO (ho_after new old g HO) no_cv e' /\
    forall I J, reads_as I J new old -> forall r, eval J r e' = eval I r e).
  assert (WI : forall a, In a args -> regular P FO HO no_cv a -> wf a).
  { intros a Ha RA. pose proof (wf_args W) as WA. rewrite Forall_forall in WA.
    destruct (WA a Ha) as [|[x ->]]; auto. destruct (regular_node _ _ _ _ _ RA) as (? & ? & ? & ?). discriminate. }
  assert (MAP : forall l, Forall (fun a => In a args) l -> Forall (regular P FO HO no_cv) l ->
             exists l', mapR (replace_with_in_call new old g) l = Ok l' /\ Forall2 Q l l').
  { intros l IN RL. apply mapR_ok. rewrite Forall_forall in *. intros a Ha. apply IH; auto. }
  assert (PLAIN : forall l l', Forall (plain_arg P FO HO no_cv) l -> Forall2 Q l l' -> Forall (plain_arg P FO (ho_after new old g HO) no_cv) l').
  { intros l l' PL F2. induction F2 as [|a b l l' (A & B & _) _ IHF]; inversion PL as [|? ? Pa Pl]; subst; constructor; auto.
    inversion Pa as [? t0 Rega Ta Fa]; subst. rewrite (arg_ok_type _ _ A) in Ta. apply (plain_intro _ _ _ _ b t0); auto. }
  assert (REGS : forall l l', Forall2 Q l l' -> Forall (regular P FO (ho_after new old g HO) no_cv) l').
  { intros l l' F2. induction F2 as [|a b l l' (A & B & _) _ IHF]; constructor; auto. }
  assert (OKS : forall l l', Forall2 Q l l' -> Forall2 arg_ok l l').
  { intros l l' F2. induction F2 as [|a b l l' (A & B & _) _ IHF]; constructor; auto. }
  assert (EVS : forall l l', Forall2 Q l l' -> forall I J, reads_as I J new old -> forall r, mapO (eval J r) l' = mapO (eval I r) l).
  { intros l l' F2 I J RI r. induction F2 as [|a b l l' (A & _ & E) _ IHF]; cbn; [reflexivity|]. rewrite (E I J RI r), IHF. reflexivity. }
  assert (WFS : forall l l', Forall (fun a => In a args) l -> Forall (regular P FO HO no_cv) l -> Forall2 Q l l' -> Forall wf l').
  { intros l l' IN RL F2. apply OKS in F2. eapply Forall2_wf; [|exact F2]. rewrite Forall_forall in *. auto. }
  inversion R as [x t0 NP|t0 args0|k0 t0 f args0 CK HF PL|k0 t0 f pre q ts post CK HH PQ PL PM|t0 q ts args0 HC PQ RA|t0 x tx e1 e2 NP R1 R2|k0 t0 args0 OK RA]; subst.
  - exists (Node KVar t [Atom (PStr x)]). split; [reflexivity|]. repeat split; auto. now constructor.
  - exists (Node KLit t args). split; [reflexivity|]. repeat split; auto. now constructor.
  - rewrite replace_call by auto. rewrite (any_plain P FO HO no_cv) by auto.
    assert (INC : Forall (fun a => In a (Atom (PStr f) :: args0)) args0) by (apply Forall_forall; intros; now right).
    destruct (MAP args0 INC (plain_regular _ _ _ _ _ PL)) as (l' & M & F2).
    assert (HIT : (if String.eqb f old then Ok false else Ok false) = Ok false) by (destruct (String.eqb f old); reflexivity).
    rewrite HIT. cbn [bindR]. rewrite M. cbn [bindR]. eexists. split; [reflexivity|]. repeat split.
    + eapply wf_Call; [|reflexivity]. eauto using plain_regular.
    + apply reg_fo; [now left|auto|eauto].
    + intros I J RI r.
      assert (E : eval I r (Node k t (Atom (PStr f) :: args0)) = match mapO (eval I r) args0 with Some vs => i_call I f vs | None => None end)
        by (destruct CK as [->| ->]; reflexivity).
      rewrite E. cbn [eval]. rewrite (EVS _ _ F2 I J RI r). destruct (mapO (eval I r) args0); [|reflexivity].
      apply RI. intros ->. contradiction.
  - rewrite replace_call by auto. rewrite (any_ho P FO HO no_cv) by auto.
    assert (INP : Forall (fun a => In a (Atom (PStr f) :: pre ++ mkVar q (TFn ts) :: post)) pre)
      by (apply Forall_forall; intros; right; apply in_or_app; now left).
    assert (INQ : Forall (fun a => In a (Atom (PStr f) :: pre ++ mkVar q (TFn ts) :: post)) post)
      by (apply Forall_forall; intros; right; apply in_or_app; right; now right).
    destruct (MAP pre INP (plain_regular _ _ _ _ _ PL)) as (la & MA & FA).
    destruct (MAP post INQ (plain_regular _ _ _ _ _ PM)) as (lb & MB & FB).
    assert (M : mapR (replace_with_in_call new old g) (pre ++ mkVar q (TFn ts) :: post) = Ok (la ++ mkVar q (TFn ts) :: lb)).
    { clear - MA MB. revert la MA. induction pre as [|x pre IHp]; cbn; intros la MA.
      - injection MA as <-. now rewrite MB.
      - destruct (replace_with_in_call new old g x); [|discriminate]. cbn in *. destruct (mapR _ pre); [|discriminate].
        cbn in *. injection MA as <-. now rewrite (IHp _ eq_refl). }
    assert (LEN : List.length la = List.length pre) by (clear - FA; induction FA; cbn; auto).
    assert (HIT : exists hit, (if String.eqb f old then Ok (String.eqb q g) else Ok false) = Ok hit /\
              (hit = true /\ f = old /\ q = g \/ hit = false /\ ~ (f = old /\ q = g))).
    { destruct (String.eqb f old) eqn:Q1.
      - apply String.eqb_eq in Q1. destruct (String.eqb q g) eqn:Q2; [apply String.eqb_eq in Q2|apply String.eqb_neq in Q2]; eexists; split; eauto.
        right. tauto.
      - apply String.eqb_neq in Q1. eexists. split; eauto. right. tauto. }
    destruct HIT as (hit & -> & CASES). cbn [bindR]. rewrite M. cbn [bindR]. eexists. split; [reflexivity|]. repeat split.
    + eapply wf_Call; [|reflexivity]. apply Forall_app. split; [|constructor; [constructor|]]; eauto using plain_regular.
    + apply reg_ho; eauto; [now left|]. rewrite LEN.
      destruct CASES as [(-> & -> & ->)|(-> & N)]; [left; auto|right; auto].
    + intros I J RI r.
      assert (E : eval I r (Node k t (Atom (PStr f) :: pre ++ mkVar q (TFn ts) :: post)) =
                  match mapO (eval I r) (pre ++ mkVar q (TFn ts) :: post) with Some vs => i_call I f vs | None => None end)
        by (destruct CK as [->| ->]; reflexivity).
      rewrite E. cbn [eval].
      assert (EA : mapO (eval J r) (la ++ mkVar q (TFn ts) :: lb) = mapO (eval I r) (pre ++ mkVar q (TFn ts) :: post)).
      { apply mapO_rel. apply Forall2_app; [|constructor; [reflexivity|]].
        - clear - FA RI. induction FA as [|a b l l' (_ & _ & X) _ IHF]; constructor; auto.
        - clear - FB RI. induction FB as [|a b l l' (_ & _ & X) _ IHF]; constructor; auto. }
      rewrite EA. destruct (mapO (eval I r) _); [|reflexivity]. destruct RI as (_ & _ & RN & RO).
      destruct CASES as [(-> & -> & ->)|(-> & N)]; [apply RN|]. apply RO. intros ->. eapply NH; eauto.
  - destruct HC.
  - cbn [replace_with_in_call mapR]. change (replace_with_in_call new old g (mkVar x tx)) with (Ok (mkVar x tx)). cbn [bindR].
    destruct (MAP [e1; e2]) as (l' & M & F2); [apply Forall_forall; intros; now right|auto|].
    cbn [mapR] in M. destruct (replace_with_in_call new old g e1) as [e1'|]; [|discriminate]. cbn [bindR] in M |- *.
    destruct (replace_with_in_call new old g e2) as [e2'|]; [|discriminate]. cbn [bindR] in M |- *. injection M as <-.
    pose proof (REGS _ _ F2) as RR. inversion RR as [|? ? A1 RR']; subst. inversion RR' as [|? ? A2 _]; subst.
    inversion F2 as [|? ? ? ? (O1 & _ & V1) F2']; subst. inversion F2' as [|? ? ? ? (O2 & _ & V2) _]; subst.
    destruct (@rebuild_wf KLet t _ [mkVar x tx; e1'; e2'] W) as [E WE].
    { constructor; [split; [reflexivity|constructor]|]. repeat constructor; auto. }
    rewrite E. eexists. split; [reflexivity|]. repeat split; auto.
    + now constructor.
    + intros I J RI r. cbn. rewrite (V1 I J RI r). destruct (eval I r e1); [|reflexivity]. apply (V2 I J RI).
  - rewrite replace_op by auto. destruct (MAP args) as (l' & -> & F2); auto.
    { apply Forall_forall; auto. }
    cbn [bindR]. destruct (rebuild_wf W (OKS _ _ F2)) as [E WE]. rewrite E. eexists. split; [reflexivity|]. repeat split; auto.
    + apply reg_op; eauto.
    + intros I J RI r. destruct RI as (D & M & RN & RO). assert (RI : reads_as I J new old) by (repeat split; auto).
      assert (GEN : match mapO (eval J r) l' with Some vs => op_val J k vs | None => None end =
                    match mapO (eval I r) args with Some vs => op_val I k vs | None => None end).
      { rewrite (EVS _ _ F2 I J RI r). destruct (mapO (eval I r) args); [|reflexivity].
        destruct k; try discriminate; cbn [op_val]; rewrite ?D, ?M; reflexivity. }
      destruct k; try discriminate; try exact GEN.
      inversion F2 as [|? ? ? ? (_ & _ & V1) F3]; subst; [reflexivity|].
      inversion F3 as [|? ? ? ? (_ & _ & V2) F4]; subst; [reflexivity|].
      inversion F4 as [|? ? ? ? (_ & _ & V3) F5]; subst; [reflexivity|].
      inversion F5; subst; [|reflexivity]. cbn [eval]. rewrite (V1 I J RI r), (V2 I J RI r), (V3 I J RI r). reflexivity.
Qed.

Lemma mapR_ext A B (f g : A -> res B) l : Forall (fun a => f a = g a) l -> mapR f l = mapR g l.
Proof. induction 1 as [|a l E _ IH]; cbn; [reflexivity|]. now rewrite E, IH. Qed.

Lemma filter_fn_args_call : forall k t f rest, call_kind k ->
  filter_fn_args (Node k t (f :: rest)) = (rest' <- drop_fn_args filter_fn_args rest ;; mkCall f t rest').
Proof. intros k t f rest [->| ->]; reflexivity. Qed.

Lemma filter_fn_args_op : forall k t args, op_kind k = true ->
  filter_fn_args (Node k t args) = (args' <- mapR filter_fn_args args ;; rebuild k t args').
Proof. intros k t args H. destruct k; try discriminate; reflexivity. Qed.

Lemma filter_fn_args_eq P FO HO : forall e, regular P FO HO no_cv e -> filter_fn_args e = filter_body "" "" None e.
Proof.
  induction e as [a|k t args IH] using expr_ind'; intros R; [inversion R|].
  assert (EXT : forall l, Forall (fun a => In a args) l -> Forall (regular P FO HO no_cv) l -> mapR filter_fn_args l = mapR (filter_body "" "" None) l).
  { intros l IN RL. apply mapR_ext. rewrite Forall_forall in *. auto. }
  assert (NAME : forall f, (if String.eqb "" f then "" else f) = f).
  { intros f. destruct (String.eqb "" f) eqn:E; auto. now apply String.eqb_eq in E. }
  inversion R as [x t0 NP|t0 args0|k0 t0 f args0 CK HF PL|k0 t0 f pre q ts post CK HH PQ PL PM|t0 q ts args0 HC PQ RA|t0 x tx e1 e2 NP R1 R2|k0 t0 args0 OK RA]; subst.
  - reflexivity.
  - reflexivity.
  - rewrite filter_fn_args_call, filter_body_call by auto. rewrite !(drop_plain P FO HO no_cv) by auto. rewrite NAME.
    rewrite EXT; eauto using plain_regular. apply Forall_forall; intros; now right.
  - rewrite filter_fn_args_call, filter_body_call by auto. rewrite !(drop_ho P FO HO no_cv) by auto. rewrite NAME.
    rewrite EXT; auto; [|apply Forall_app; split; eapply plain_regular; eauto].
    apply Forall_forall. intros a Ha. right. apply in_app_or in Ha. apply in_or_app. destruct Ha; [now left|right; now right].
  - destruct HC.
  - cbn [filter_fn_args filter_body].
    assert (M : mapR filter_fn_args [mkVar x tx; e1; e2] = mapR (filter_body "" "" None) [mkVar x tx; e1; e2]).
    { apply mapR_ext. rewrite Forall_forall in IH. constructor; [reflexivity|]. constructor; [apply IH; cbn; auto|].
      constructor; [apply IH; cbn; auto|constructor]. }
    rewrite M. reflexivity.
  - rewrite filter_fn_args_op, filter_body_op by auto. rewrite EXT; auto. apply Forall_forall; auto.
Qed.

(** the name a call of [h] with function argument [q] has in the end *)
Fixpoint final_name (renamed : list ((string * string) * string)) (h q : string) : string :=
  match renamed with
  | [] => h
  | ((f, g), new) :: r => if String.eqb h f && String.eqb q g then final_name r new q else final_name r h q
  end.

Lemma cand_sound P FO (G : string -> string) renamed : NoDup (map snd renamed) -> (forall n, In n (map snd renamed) -> ~ FO n) ->
  forall HO e, (forall n, In n (map snd renamed) -> forall m q, ~ HO n m q) -> wf e -> regular P FO HO no_cv e ->
  exists e' e'', rename_calls renamed e = Ok e' /\
    filter_fn_args e' = Ok e'' /\
    forall I J, i_div I = i_div J -> i_mod I = i_mod J ->
      (forall h vs v, FO h -> i_call I h vs = Some v -> i_call J h vs = Some v) ->
      (forall h q a b v, HO h (List.length a) q -> i_call I h (a ++ VFn (G q) :: b) = Some v ->
          i_call J (final_name renamed h q) (a ++ b) = Some v) ->
      forall r r' v, agree P G r r' -> eval I r e = Some v -> eval J r' e'' = Some v.
Proof.
  induction renamed as [|[[f g] new] L IH]; intros ND NF HO e NH W R.
  - exists e. destruct (filter_body_ok0 P FO HO "" "" e W R) as (e'' & E & _). exists e''.
    rewrite (filter_fn_args_eq P FO HO e R). repeat split; auto.
    intros I J D M HF HH r r' v A EV.
    assert (RN : forall h, rn "" "" h = h).
    { intros h. unfold rn. destruct (String.eqb "" h) eqn:Q; auto. now apply String.eqb_eq in Q. }
    apply (filter_body_sound I J P FO HO no_cv G "" "" None) with (e := e) (r := r); auto.
    + intros h vs w. rewrite RN. apply HF.
    + intros h q a b w. rewrite RN. apply HH.
    + intros q [].
  - cbn [map snd] in *. inversion ND as [|? ? NI ND']; subst.
    destruct (replace_ok P FO HO new f g) with (e := e) as (e1 & E1 & A1 & R1 & V1); auto with datatypes.
    destruct (IH ND' (fun n Hn => NF n (or_intror Hn)) (ho_after new f g HO) e1) as (e' & e'' & F & FF & V); auto.
    { intros n Hn m q [(-> & _)|[X _]]; [contradiction|]. eapply NH; [right; exact Hn|exact X]. }
    { eapply arg_ok_wf; eauto. }
    exists e', e''. unfold rename_calls in *. cbn [foldR snd fst]. rewrite E1. cbn [bindR]. repeat split; auto.
    intros I J D M HF HH r r' v A EV.
    set (K := {| i_div := i_div I; i_mod := i_mod I;
                 i_call := fun h vs => if String.eqb h new then i_call I f vs else i_call I h vs |}).
    assert (RK : reads_as I K new f).
    { repeat split; cbn; [intros vs; now rewrite String.eqb_refl|]. intros h vs N. apply String.eqb_neq in N. now rewrite N. }
    apply (V K J) with (r := r); auto; [| |now rewrite (V1 I K RK r)].
    + intros h vs w FH C. destruct RK as (_ & _ & _ & RO). rewrite RO in C; [auto|]. intros ->. apply (NF new); auto with datatypes.
    + intros h q a b w [(-> & -> & X)|[X N]] C.
      * destruct RK as (_ & _ & RN & _). rewrite RN in C. specialize (HH f g a b w X C).
        cbn [final_name] in HH. rewrite !String.eqb_refl in HH. exact HH.
      * destruct RK as (_ & _ & _ & RO). rewrite RO in C; [|intros ->; eapply NH; [now left|exact X]].
        specialize (HH h q a b w X C). cbn [final_name] in HH.
        destruct (String.eqb h f) eqn:Q1; [|exact HH]. destruct (String.eqb q g) eqn:Q2; [|exact HH].
        apply String.eqb_eq in Q1. apply String.eqb_eq in Q2. tauto.
Qed.

(* ------------------------------------------------------------------ *)
(** ** the same for the functions of the pipeline *)

Lemma mapR_types_params p l : Forall (plain_param p) l -> exists ts, mapR type_of l = Ok ts.
Proof. induction 1 as [|a l (x & t & -> & N & F) _ (ts & IH)]; [now exists []|]. exists (t :: ts). cbn. now rewrite IH. Qed.

(** a declaration of function [f] *)
Definition declares (t : expr) (f : string) (d : fndef) : Prop := entry t = Some (f, d) /\ is_fn_decl t = true.

Lemma spec_direct_ok base T T' t f g d p ts pre post s :
  extends base T T' -> dget T f = Some d -> declares t f d ->
  fn_params d = pre ++ mkVar p (TFn ts) :: post -> Forall (plain_param p) pre -> Forall (plain_param p) post -> wf (fn_body d) ->
  regular (fun x => x = p) (fun h => h <> f) (fun h n q => h = f /\ n = List.length pre /\ q = p) (fun q => q = p) (fn_body d) ->
  exists s' t' d', spec_direct t s (f, g) = Ok s' /\ s_decls s' = s_decls s ++ [t'] /\
    s_renamed s' = pset (s_renamed s) (f, g) (f ++ "_" ++ g)%string /\
    declares t' (f ++ "_" ++ g) d' /\
    (dget T' (f ++ "_" ++ g) = Some d' -> copy_ok base T T' (List.length pre) g f (f ++ "_" ++ g)).
Proof.
  intros X D (EN & ISD) PS PA PB W R.
  destruct t as [|k tt args]; [discriminate|]. cbn in EN. destruct tt; try discriminate. destruct ts0 as [|rt ts0]; [discriminate|].
  destruct args as [|[[]|] [|body ps]]; try discriminate. injection EN as <- <-. cbn [fn_params fn_body] in *.
  destruct (filter_body_ok (fun x => x = p) (fun h => h <> s0) (fun h n q => h = s0 /\ n = List.length pre /\ q = p) (fun q => q = p)
              (s0 ++ "_" ++ g) s0 (Some g)) with (e := body) as (b' & F & _); auto; [discriminate|].
  subst ps. destruct (mapR_types_params p (pre ++ post)) as (tys & TY); [apply Forall_app; auto|].
  unfold spec_direct. cbn [decl_name decl_body decl_params bindR fst snd]. rewrite String.eqb_refl. cbn [negb].
  rewrite F. cbn [bindR]. rewrite (filter_args_one p) by auto. cbn [bindR].
  assert (K : exists k', copy_decl (Node k (TFn (rt :: ts0)) (Atom (PStr s0) :: body :: pre ++ mkVar p (TFn ts) :: post)) (s0 ++ "_" ++ g) b' (pre ++ post)
                = Ok (Node k' (TFn (rt :: tys)) (Atom (PStr (s0 ++ "_" ++ g)) :: b' :: pre ++ post)) /\
                (k' = KFnDeclRec \/ k' = KFnDecl)).
  { destruct k; (exists KFnDeclRec; split; [cbn; unfold mkFn; rewrite TY; reflexivity|auto]) || (exists KFnDecl; split; [cbn; unfold mkFn; rewrite TY; reflexivity|auto]). }
  destruct K as (k' & -> & KK). cbn [bindR]. eexists. eexists. eexists. split; [reflexivity|]. cbn [s_decls s_renamed].
  split; [reflexivity|]. split; [reflexivity|]. split; [split; [reflexivity|destruct KK as [->| ->]; reflexivity]|].
  intros DN. eapply (copy_direct base T T' s0 g) with (ts := ts); eauto; reflexivity.
Qed.

Lemma spec_caller_ok base T T' t f g d p ts pre post fn fn' fpos s :
  extends base T T' -> dget T f = Some d -> declares t f d -> calls_directly t fn = true ->
  copy_ok base T T' fpos g fn fn' -> fn <> f -> fn' <> f ->
  fn_params d = pre ++ mkVar p (TFn ts) :: post -> Forall (plain_param p) pre -> Forall (plain_param p) post -> wf (fn_body d) ->
  regular (fun x => x = p) (fun h => h <> fn /\ h <> f)
    (fun h n q => (h = fn /\ n = fpos \/ h = f /\ n = List.length pre) /\ q = p) no_cv (fn_body d) ->
  exists s' t' d', spec_caller fn g (s, fn') t = Ok (s', (f ++ "_" ++ fn')%string) /\ s_decls s' = s_decls s ++ [t'] /\
    s_renamed s' = pset (s_renamed s) (f, g) (f ++ "_" ++ fn')%string /\
    declares t' (f ++ "_" ++ fn') d' /\
    (dget T' (f ++ "_" ++ fn') = Some d' -> copy_ok base T T' (List.length pre) g f (f ++ "_" ++ fn')).
Proof.
  intros X D (EN & ISD) CD CK NE NE' PS PA PB W R. unfold spec_caller. rewrite ISD, CD. cbn [negb].
  destruct t as [|k tt args]; [discriminate|]. cbn in EN. destruct tt; try discriminate. destruct ts0 as [|rt ts0]; [discriminate|].
  destruct args as [|[[]|] [|body ps]]; try discriminate. injection EN as <- <-. cbn [fn_params fn_body] in *.
  destruct (filter_body_ok0 _ _ _ fn' fn body W R) as (b1 & F1 & A1).
  pose proof (filter_body_plain _ _ _ fn' fn body W R b1 F1) as R1.
  assert (W1 : wf b1) by (eapply arg_ok_wf; eauto).
  destruct (filter_body_ok0 _ _ _ (s0 ++ "_" ++ fn') s0 b1 W1 R1) as (b2 & F2 & A2).
  subst ps. destruct (mapR_types_params p (pre ++ post)) as (tys & TY); [apply Forall_app; auto|].
  cbn [decl_name decl_body decl_params bindR fst snd]. rewrite F1. cbn [bindR]. rewrite F2. cbn [bindR].
  rewrite (filter_args_one p) by auto. cbn [bindR].
  assert (K : exists k', copy_decl (Node k (TFn (rt :: ts0)) (Atom (PStr s0) :: body :: pre ++ mkVar p (TFn ts) :: post)) (s0 ++ "_" ++ fn') b2 (pre ++ post)
                = Ok (Node k' (TFn (rt :: tys)) (Atom (PStr (s0 ++ "_" ++ fn')) :: b2 :: pre ++ post)) /\
                (k' = KFnDeclRec \/ k' = KFnDecl)).
  { destruct k; (exists KFnDeclRec; split; [cbn; unfold mkFn; rewrite TY; reflexivity|auto]) || (exists KFnDecl; split; [cbn; unfold mkFn; rewrite TY; reflexivity|auto]). }
  destruct K as (k' & -> & KK). cbn [bindR]. eexists. eexists. eexists. split; [reflexivity|]. cbn [s_decls s_renamed].
  split; [reflexivity|]. split; [reflexivity|]. split; [split; [reflexivity|destruct KK as [->| ->]; reflexivity]|].
  intros DN. eapply (copy_caller base T T' fn fn' fpos s0 g) with (ts := ts); eauto; reflexivity.
Qed.
