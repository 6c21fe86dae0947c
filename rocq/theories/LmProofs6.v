(** Names of lambdas. *)

From Coq Require Import String Ascii List ZArith Bool Lia.
From Verif Require Import Ast IrProofs Dict Semantics UtilProofs LmModel LmSem LmProofs LmProofs3 LmProofs4 LmProofs5.
Import ListNotations.
Local Open Scope string_scope.
Local Open Scope list_scope.

(** ** Lambdas that are equal mean the same *)
Fixpoint eqs (l1 l2 : list expr) : res bool :=
  match l1, l2 with
  | x :: r1, y :: r2 => q <- eq_expr x y ;; if q then eqs r1 r2 else Ok false
  | _, _ => Ok true
  end.
Lemma eqs_F l1 : forall l2, List.length l1 = List.length l2 -> eqs l1 l2 = Ok true -> Forall2 (fun x y => eq_expr x y = Ok true) l1 l2.
Proof.
  induction l1 as [|x l1 IH]; intros [|y l2] L E; try discriminate; [constructor|]. cbn [eqs] in E. apply bindR_ok in E as (q & Q & E). destruct q; [|discriminate].
  constructor; auto.
Qed.
Lemma eq_unfold k t l k' t' l' : is_con k = false -> is_con k' = false ->
  eq_expr (Node k t l) (Node k' t' l') = if negb (kind_eqb k k') || negb (Nat.eqb (List.length l) (List.length l')) then Ok false else eqs l l'.
Proof. intros K K'. cbn [eq_expr]. rewrite K, K'. reflexivity. Qed.
Lemma eq_con k t l t' l' : is_con k = false -> eq_expr (Node k t l) (Node KConstraint t' l') = Err ExAttr.
Proof. intros K. cbn [eq_expr]. rewrite K. reflexivity. Qed.
Lemma eq_node k t l e : is_con k = false -> eq_expr (Node k t l) e = Ok true -> exists t' l', e = Node k t' l' /\ Forall2 (fun x y => eq_expr x y = Ok true) l l'.
Proof.
  intros K E. destruct e as [a|k' t' l']; [discriminate|].
  destruct (is_con k') eqn:K'; [destruct k'; try discriminate K'; rewrite eq_con in E by exact K; discriminate|].
  rewrite eq_unfold in E by assumption. destruct (kind_eqb k k') eqn:Q; [|discriminate]. destruct (Nat.eqb _ _) eqn:LL; [|discriminate]. apply Nat.eqb_eq in LL. apply kind_eqb_eq in Q. subst k'.
  exists t', l'. split; [reflexivity|]. now apply eqs_F.
Qed.
Lemma eq_str s e : eq_expr (Atom (PStr s)) e = Ok true -> e = Atom (PStr s).
Proof. destruct e as [[s'|z|b|]|k t l]; cbn; try discriminate; intros E; injection E as E. apply String.eqb_eq in E. now subst. Qed.

Definition means (a b : expr) : Prop :=
  (forall I r, eval I r (erase a) = eval I r (erase b)) /\ is_decl a = is_decl b /\ decl_name a = decl_name b.
Lemma eq_var v v' : is_var v = true -> is_var v' = true -> eq_expr v v' = Ok true -> vname v = vname v'.
Proof.
  intros V V' E. destruct v as [|[] t [|[[x| | |]|] [|]]]; try discriminate V. apply eq_node in E as (t' & l' & -> & F); [|reflexivity].
  inversion F as [|? y ? l2 E1 F2]; subst. apply eq_str in E1. subst y. inversion F2. reflexivity.
Qed.
Lemma eq_vars l : forall l', forallb is_var l = true -> forallb is_var l' = true -> Forall2 (fun x y => eq_expr x y = Ok true) l l' -> map vname l = map vname l'.
Proof.
  induction l as [|v l IH]; intros l' V V' F; inversion F; subst; [reflexivity|]. cbn in V, V' |- *. apply andb_true_iff in V as [? ?]. apply andb_true_iff in V' as [? ?]. f_equal; [now apply eq_var|auto].
Qed.
Lemma means_list I r l l' : Forall2 means l l' -> mapO (eval I r) (map erase l) = mapO (eval I r) (map erase l').
Proof.
  induction 1 as [|a b l l' M F IH]; [reflexivity|]. cbn [map mapO]. now rewrite (proj1 M), IH.
Qed.
Lemma means_args I r l l' : Forall2 means l l' -> mapO (eval I r) (map aerase l) = mapO (eval I r) (map aerase l').
Proof.
  induction 1 as [|a b l l' (M1 & M2 & M3) F IH]; [reflexivity|]. cbn [map mapO]. rewrite IH. assert (E : eval I r (aerase a) = eval I r (aerase b)); [|now rewrite E].
  unfold aerase. rewrite <- M2. destruct (is_decl a) eqn:DA; [|auto]. destruct a as [|k t x], b as [|k' t' x']; try discriminate. cbn [eval mkVar]. now rewrite M3.
Qed.

(** a declaration's parameters and body agree *)
Definition same_fn (a b : expr) : Prop :=
  match a, b with
  | Node KFnDeclRec _ (_ :: x :: ps), Node KFnDeclRec _ (_ :: y :: qs) =>
      map vname ps = map vname qs /\ (forall I r, eval I r (erase x) = eval I r (erase y))
  | _, _ => True
  end.
Lemma made_con e : made e -> exists k t l, e = Node k t l /\ is_con k = false.
Proof. destruct e as [|k t l]; [contradiction|]. intros M. exists k, t, l. split; [reflexivity|]. destruct k; try reflexivity. contradiction. Qed.

Lemma eq_means : forall a b, made a -> made b -> eq_expr a b = Ok true -> means a b /\ same_fn a b.
Proof.
  induction a as [x|k t args IH] using expr_ind'; intros b MA MB E; [contradiction|].
  destruct (made_con _ MA) as (k0 & t0 & l0 & X & KC). injection X as <- <- <-. apply eq_node in E as (t' & args' & -> & F); [|exact KC].
  assert (LIST : forall l l', Forall (fun a => forall b, made a -> made b -> eq_expr a b = Ok true -> means a b /\ same_fn a b) l -> all_made l -> all_made l' -> Forall2 (fun x y => eq_expr x y = Ok true) l l' -> Forall2 means l l').
  { clear. induction l as [|a l IHl]; intros l' F0 M M' F2; inversion F2; subst; [constructor|]. inversion F0; subst. destruct M, M'. constructor; [now apply H2|auto]. }
  assert (SIMPLE : simple k = true -> means (Node k t args) (Node k t' args') /\ same_fn (Node k t args) (Node k t' args')).
  { intros K. assert (MA' : all_made args) by (destruct k; try discriminate K; exact (proj1 MA)). assert (MB' : all_made args') by (destruct k; try discriminate K; exact (proj1 MB)).
    pose proof (LIST _ _ IH MA' MB' F) as FM. split; [|destruct k; try discriminate K; exact Logic.I].
    assert (NC : forall l t, is_call (Node k t l) = false) by (intros; destruct k; try discriminate K; reflexivity). split; [|split].
    - intros I r. rewrite !erase_node by apply NC. pose proof (means_list I r _ _ FM) as ML.
      assert (GEN : forall l t, k <> KIte -> eval I r (Node k t l) = match mapO (eval I r) l with Some vs => op_val I k vs | None => None end) by (intros l t1 NI; destruct k; try discriminate K; try reflexivity; now destruct NI).
      destruct (kind_eqb k KIte) eqn:Q.
      + apply kind_eqb_eq in Q. subst k. cbn [eval]. clear - FM. destruct FM as [|a b l l' Ma FM]; [reflexivity|]. destruct FM as [|a1 b1 l l' Mb FM]; [reflexivity|]. destruct FM as [|a2 b2 l l' Mc FM]; [reflexivity|]. destruct FM; [|reflexivity].
        cbn [map]. now rewrite (proj1 Ma), (proj1 Mb), (proj1 Mc).
      + assert (NI : k <> KIte) by (intros ->; discriminate Q). rewrite !GEN by exact NI. now rewrite ML.
    - destruct k; try discriminate K; reflexivity.
    - clear - FM MA' MB'. destruct FM as [|a b l l' M F]; [reflexivity|]. destruct MA' as [Ma _], MB' as [Mb _]. destruct a, b; try contradiction. reflexivity. }
  destruct k; try (now apply SIMPLE); try contradiction.
  - destruct args as [|[[x| | |]|] [|]]; try discriminate MA. inversion F as [|? y ? l2 E1 F2]; subst. apply eq_str in E1. subst y. inversion F2; subst. split; [split; [intros I r|]|exact Logic.I]; cbn; auto.
  - destruct MA as (z & -> & ->). destruct MB as (z' & -> & ->). inversion F as [|? y ? l2 E1 F2]; subst. cbn in E1. injection E1 as E1. apply Z.eqb_eq in E1. subst z'. split; [split; [intros I r|]|exact Logic.I]; cbn; auto.
  - cbn [made] in MA. destruct args as [|[[f| | |]|] rest]; try contradiction. change (all_made rest) in MA. inversion F as [|? y ? rest' E1 F2]; subst. apply eq_str in E1. subst y. change (all_made rest') in MB.
    inversion IH as [|? ? _ IHr]; subst. pose proof (LIST _ _ IHr MA MB F2) as FM. split; [split; [intros I r|split; reflexivity]|exact Logic.I]. rewrite !erase_call. cbn [eval]. now rewrite (means_args I r _ _ FM).
  - cbn [made] in MA, MB. destruct args as [|[[f| | |]|] [|b rest]]; try contradiction. inversion F as [|? y ? l2 E1 F2]; subst. apply eq_str in E1. subst y. inversion F2 as [|? b' ? rest' E2 F3]; subst.
    destruct MA as (MA & VA & _). destruct MB as (MB & VB & _). inversion IH as [|? ? _ IHr]; subst. inversion IHr as [|? ? IHb _]; subst. destruct (IHb _ MA MB E2) as [[Me _] _].
    split; [split; [intros I r; reflexivity|split; reflexivity]|]. split; [now apply eq_vars|exact Me].
Qed.

(** ** Names *)
Definition lname (p : string) (c : nat) : string := (p ++ "_" ++ string_of_nat c)%string.
Lemma lname_inj p c q d : lname p c = lname q d -> p = q /\ c = d.
Proof.
  unfold lname. intros E. change ("_" ++ ?x)%string with (String "_"%char x) in E. apply split_last in E as [E1 E2]; try apply string_of_nat_lacks. split; [exact E1|now apply string_of_nat_inj].
Qed.
Lemma NoDup_app_snoc A (l : list A) x : NoDup l -> ~ In x l -> NoDup (l ++ [x]).
Proof. intros N NI. induction N as [|y l Ny N IH]; cbn; [repeat constructor; tauto|]. constructor; [rewrite in_app_iff; cbn in *; intros [Y|[Y|[]]]; [tauto|subst; tauto]|apply IH; cbn in NI; tauto]. Qed.
(** [d] is a lambda that carries the name noted for it *)
Definition carries (K : expr -> Prop) (lams : list (expr * string)) (d : expr) : Prop :=
  exists k e n, In (k, n) lams /\ (k = e \/ eq_expr k e = Ok true) /\ K e /\ d = set_name e n.
Definition counted (K : expr -> Prop) (s : pst) : Prop :=
  NoDup (map snd (s_lams s)) /\
  (forall k n, In (k, n) (s_lams s) -> K k /\ exists p c, n = lname p c /\ exists m, dget (s_count s) p = Some m /\ (c < m)%nat).

Section Keep.
  Variables (X K : expr -> Prop).
  Hypothesis KP : forall sigs ps t b s e s', parse sigs (NLambda ps t b) s = (Ok e, s') -> K e.
  Definition fine (s : pst) : Prop := counted K s /\ forall d, In d (s_decls s) -> X d \/ (is_var d = true \/ carries K (s_lams s) d).
  Definition later (s s' : pst) : Prop := fine s -> fine s' /\ incl (s_lams s) (s_lams s').
  Definition keeps {A} (m : M A) : Prop := forall s, later s (snd (m s)).
  Lemma later_refl s : later s s.
  Proof. intros F. split; [exact F|apply incl_refl]. Qed.
  Lemma later_trans a b c : later a b -> later b c -> later a c.
  Proof. intros P Q F. destruct (P F) as [F1 I1]. destruct (Q F1) as [F2 I2]. split; [exact F2|eapply incl_tran; eauto]. Qed.
  Lemma keeps_ret {A} (a : A) : keeps (ret a).
  Proof. intros s. apply later_refl. Qed.
  Lemma keeps_raise {A} x : keeps (@raise A x).
  Proof. intros s. apply later_refl. Qed.
  Lemma keeps_lift {A} (r : res A) : keeps (lift r).
  Proof. intros s. apply later_refl. Qed.
  Lemma keeps_bind {A B} (m : M A) (f : A -> M B) : keeps m -> (forall a, keeps (f a)) -> keeps (bindM m f).
  Proof.
    intros P Q s. unfold bindM. specialize (P s). destruct (m s) as [[a|x] s1]; cbn in *; [|exact P].
    eapply later_trans; [exact P|apply Q].
  Qed.
  Lemma find_lam_some l e n : find_lam l e = Ok (Some n) -> exists k, In (k, n) l /\ eq_expr k e = Ok true.
  Proof.
    induction l as [|[k m] l IH]; cbn; [discriminate|]. intros E. apply bindR_ok in E as (q & Q & E). destruct q; [injection E as ->; exists k; auto|]. destruct (IH E) as (k' & ? & ?). exists k'. auto.
  Qed.
  Lemma carries_incl l l' d : incl l l' -> carries K l d -> carries K l' d.
  Proof. intros I0 (k & e & n & A & B & C). exists k, e, n. auto. Qed.
  Lemma fine_app s ds calls l' c' : fine s -> incl (s_lams s) l' -> counted K {| s_decls := []; s_calls := []; s_lams := l'; s_count := c' |} ->
    (forall d, In d ds -> X d \/ (is_var d = true \/ carries K l' d)) ->
    fine {| s_decls := s_decls s ++ ds; s_calls := calls; s_lams := l'; s_count := c' |}.
  Proof.
    intros [C D] I0 C' N. split; [exact C'|]. cbn [s_decls s_lams]. intros d Hd. apply in_app_or in Hd as [Hd|Hd]; [|auto]. destruct (D d Hd) as [Y|[Y|Y]]; [auto|auto|]. right. right. eapply carries_incl; eauto.
  Qed.
  Lemma keeps_fn_arg f ps sh e : (sh = ALambda /\ K e \/ is_var e = true /\ sh <> ALambda \/ sh = AOther) -> keeps (fn_arg f ps sh e).
  Proof.
    intros SH s F. unfold fn_arg. destruct sh.
    - assert (KE : K e) by (destruct SH as [[_ Y]|[[_ Y]|Y]]; [exact Y|now destruct Y|discriminate Y]). destruct (find_lam (s_lams s) e) as [[n|]|x] eqn:FL; [| |split; [exact F|apply incl_refl]].
      + cbn [snd]. split; [|apply incl_refl]. apply fine_app; [exact F|apply incl_refl|exact (proj1 F)|]. intros d [<-|[]]. right. right. apply find_lam_some in FL as (k & K1 & K2). exists k, e, n. auto.
      + destruct ps as [|p ps]; [split; [exact F|apply incl_refl]|]. cbn [snd]. set (c := match dget (s_count s) p with Some c => c | None => 0%nat end).
        split; [|apply incl_appl, incl_refl]. apply fine_app; [exact F|apply incl_appl, incl_refl| |intros d [<-|[]]; right; right; exists e, e, (lname p c); split; [apply in_or_app; right; left; reflexivity|auto]].
        destruct F as [[ND CN] _]. split; cbn [s_lams s_count].
        * rewrite map_app. cbn [map snd]. apply NoDup_app_snoc; [exact ND|]. intros IN. apply in_map_iff in IN as ([k n] & EQ & IN). cbn in EQ. subst n. destruct (CN _ _ IN) as (_ & p' & c' & EQ & m & Dm & Lm).
          apply lname_inj in EQ as [<- <-]. unfold c in *. rewrite Dm in Lm. lia.
        * intros k n IN. apply in_app_or in IN as [IN|[IN|[]]].
          -- destruct (CN _ _ IN) as (KK & p' & c' & -> & m & Dm & Lm). split; [exact KK|]. exists p', c'. split; [reflexivity|]. destruct (String.eqb p' p) eqn:Q.
             ++ apply String.eqb_eq in Q. subst p'. exists (c + 1)%nat. rewrite dget_dset, String.eqb_refl. split; [reflexivity|]. unfold c. rewrite Dm. lia.
             ++ exists m. rewrite dget_dset, Q. auto.
          -- injection IN as <- <-. split; [exact KE|]. exists p, c. split; [reflexivity|]. exists (c + 1)%nat. rewrite dget_dset, String.eqb_refl. split; [reflexivity|lia].
    - cbn [snd]. split; [|apply incl_refl]. apply fine_app; [exact F|apply incl_refl|exact (proj1 F)|]. intros d [<-|[]]. destruct SH as [[Y _]|[[Y _]|Y]]; try discriminate; auto.
    - split; [exact F|apply incl_refl].
  Qed.

  Lemma keeps_bind' {A B} (m : M A) (f : A -> M B) : keeps m -> (forall s a s', m s = (Ok a, s') -> keeps (f a)) -> keeps (bindM m f).
  Proof.
    intros P Q s. unfold bindM. specialize (P s). destruct (m s) as [[a|x] s1] eqn:E; cbn in *; [|exact P].
    eapply later_trans; [exact P|apply (Q _ _ _ E)].
  Qed.
  Hint Resolve keeps_ret keeps_raise keeps_lift : keeps.
  Definition shaped (a : M expr * ashape) : Prop := forall s e s', fst a s = (Ok e, s') -> match snd a with AName _ => is_var e = true | ALambda => K e | AOther => True end.
  Lemma keeps_call_args f acts : Forall (fun a => keeps (fst a) /\ shaped a) acts -> forall tys ps, keeps (call_args f acts tys ps).
  Proof.
    induction 1 as [|[a sh] acts' [P SH] _ IH]; intros tys ps; [apply keeps_ret|]. destruct tys as [|t tys]; [apply keeps_ret|]. cbn -[bindM fn_arg].
    apply keeps_bind'; [exact P|]. intros s e s' E. apply keeps_bind; [apply keeps_lift|]. intros te. destruct (negb _); [apply keeps_raise|].
    apply keeps_bind; [destruct (is_fn_ty te); [|apply keeps_ret]; apply keeps_fn_arg|].
    - specialize (SH _ _ _ E). cbn in SH. destruct sh as [|x|]; [auto| |auto]. right. left. split; [exact SH|discriminate].
    - intros e'. apply keeps_bind; [apply IH|auto with keeps].
  Qed.
  Lemma keeps_clauses ops : forall acts, Forall keeps acts -> keeps (clauses ops acts).
  Proof.
    induction ops as [|op ops IH]; intros acts F; [apply keeps_ret|]. destruct acts as [|a [|b rest]]; try apply keeps_raise. cbn -[bindM].
    inversion F as [|? ? Fa Fr]; subst. inversion Fr as [|? ? Fb Fr']; subst.
    apply keeps_bind; [exact Fa|]. intros l. apply keeps_bind; [exact Fb|]. intros r. apply keeps_bind; [apply keeps_lift|]. intros c.
    apply keeps_bind; [apply IH; exact Fr|auto with keeps].
  Qed.
  Lemma shaped_parse sigs n : shaped (parse sigs n, shape_of n).
  Proof.
    intros s e s' E. destruct n; try exact Logic.I; [|cbn [fst snd shape_of] in *; eapply KP, E]. cbn -[bindM] in E. apply bindM_ok in E as (o & s1 & E1 & E). destruct o as [t'|]; [|discriminate]. apply lift_ok in E as [E ->]. apply named_is in E. subst e. reflexivity.
  Qed.
  Lemma keeps_parse sigs n : keeps (parse sigs n).
  Proof.
    induction n using pnode_ind'; cbn -[bindM]; auto with keeps.
    - apply keeps_bind; [auto with keeps|]. intros []; auto with keeps.
    - repeat (apply keeps_bind; [now auto with keeps|intros]); auto with keeps.
    - destruct (String.eqb op "-"); [|auto with keeps]. apply keeps_bind; auto with keeps.
    - repeat (apply keeps_bind; [now auto with keeps|intros]); auto with keeps.
    - apply keeps_bind; [apply keeps_clauses|auto with keeps]. induction H; constructor; auto.
    - repeat (apply keeps_bind; [now auto with keeps|intros]); auto with keeps.
    - apply keeps_bind; [auto|intros]. apply keeps_bind; [auto with keeps|intros].
      apply keeps_bind; [destruct s; [apply keeps_bind; auto with keeps|auto with keeps]|intros].
      apply keeps_bind; [destruct e; [apply keeps_bind; auto with keeps|auto with keeps]|intros]. auto with keeps.
    - destruct (String.eqb f "len").
      + destruct l as [|a [|b r]]; try apply keeps_raise. apply keeps_bind; [now inversion H|auto with keeps].
      + unfold call_node. destruct (dget sigs f); [|auto with keeps]. destruct (negb _); [auto with keeps|].
        apply keeps_bind; [apply keeps_call_args; induction H; constructor; auto using shaped_parse|]. intros es. apply keeps_bind; [auto with keeps|]. intros [a|]; [destruct (ty_eqb a _)|]; auto with keeps.
    - apply keeps_bind; [auto with keeps|]. intros [[]|]; auto with keeps. destruct ts; auto with keeps.
      repeat (apply keeps_bind; [now auto with keeps|intros]); auto with keeps.
  Qed.
  Lemma keeps_parse_fun sigs f : (forall d, is_decl d = true -> decl_name d = f_name f -> X d) -> keeps (parse_fun sigs f).
  Proof.
    intros XD. unfold parse_fun. destruct (dget sigs (f_name f)); [|apply keeps_raise]. apply keeps_bind; [apply keeps_lift|intros vs]. apply keeps_bind.
    - unfold parse_body. repeat match goal with |- keeps match ?x with _ => _ end => destruct x end; try apply keeps_raise; apply keeps_parse.
    - intros b. apply keeps_bind'; [apply keeps_lift|]. intros s0 d s1 E. apply lift_ok in E as [E ->]. unfold mkFn in E. apply bindR_ok in E as (ts & _ & E). injection E as <-. intros s F. cbn [snd]. split; [|apply incl_refl].
      apply fine_app; [exact F|apply incl_refl|exact (proj1 F)|]. intros d [<-|[]]. left. apply XD; reflexivity.
  Qed.
  Lemma keeps_parse_funs sigs fs : (forall d, is_decl d = true -> In (decl_name d) (map f_name fs) -> X d) -> keeps (parse_funs sigs fs).
  Proof.
    induction fs as [|f fs IH]; intros XD; cbn -[bindM]; [apply keeps_ret|]. apply keeps_bind; [apply keeps_parse_fun; intros d D N; apply XD; [exact D|left; now symmetry]|]. intros _. apply IH. intros d D N. apply XD; [exact D|now right].
  Qed.
End Keep.

(** names after reading a text, starting with those of the texts before *)
Theorem check_names (K : expr -> Prop) n fs dsl lams cnt r s : (forall sigs ps t b s e s', parse sigs (NLambda ps t b) s = (Ok e, s') -> K e) ->
  counted K {| s_decls := []; s_calls := []; s_lams := lams; s_count := cnt |} ->
  check_solution n fs dsl lams cnt = (r, s) ->
  counted K s /\ incl lams (s_lams s) /\
  forall d, In d (s_decls s) -> (is_decl d = true /\ In (decl_name d) (map f_name fs)) \/ (is_var d = true \/ carries K (s_lams s) d).
Proof.
  intros KP C E. unfold check_solution in E.
  assert (Z : fine (fun d => is_decl d = true /\ In (decl_name d) (map f_name fs)) K {| s_decls := []; s_calls := []; s_lams := lams; s_count := cnt |}) by (split; [exact C|intros d []]).
  destruct (negb _); [injection E as <- <-; cbn; split; [exact C|split; [apply incl_refl|intros d []]]|].
  destruct (sign (fs ++ dsl) []) as [sigs|x]; [|injection E as <- <-; cbn; split; [exact C|split; [apply incl_refl|intros d []]]].
  destruct (keeps_parse_funs _ K KP sigs fs (fun d D N => Logic.conj D N) _ Z) as [[F1 F2] I0]. rewrite E in F1, F2, I0. auto.
Qed.
