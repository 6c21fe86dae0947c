(** The kernel stores the elements of the summary's value. *)

From Coq Require Import String Ascii List ZArith Bool Lia QArith Qround.
From Verif Require Import Ast Dict Semantics SmtPrint UtilProofs IrProofs LibSem RktModel NpModel NpSem NpProofs2 NpProofs4 NpProofs5 GdModel GdSem GdProofs1 GdProofs2 GdProofs3 GdProofs4 GdProofs5 GdProofs6 GdProofs7 GdProofs8.
Import ListNotations.
Local Open Scope nat_scope.
Local Open Scope string_scope.
Local Open Scope list_scope.

(** ** variables that are not generated *)
Lemma cexecs_none tile log x : good log -> (forall n, x <> fresh n) -> forall l seen st stf, incl l log -> cexecs tile seen st l = Some stf -> st x = None -> stf x = None.
Proof.
  intros G F. induction l as [|i l IH]; intros seen st stf L E N; cbn [cexecs] in E; [injection E as <-; exact N|].
  assert (Li : In i log) by (apply L; cbn; auto). assert (Ll : incl l log) by (intros a A; apply L; cbn; auto).
  destruct (cexec tile seen st i) as [(seen' & st')|] eqn:X; [|discriminate]. apply (IH seen' st' stf Ll E). clear IH E.
  assert (C : forall y v, y <> x -> cset st y v x = None) by (intros y v Y; unfold cset; destruct (String.eqb_spec y x); [contradiction|exact N]).
  assert (Fx : forall n, fresh n <> x) by (intros n Q; apply (F n); auto).
  apply In_nth_error in Li as (n & Li). apply G in Li. destruct Li as [t e| |y|m k e K _ _]; unfold cexec, let_, decl_, set_ in X; cbn [i_dest i_type i_exp] in X.
  - destruct (smem _ seen); [discriminate|]. destruct (ceval tile _ e) as [v|]; [|discriminate]. destruct (initial t v); [|discriminate]. injection X as _ <-. apply C, Fx.
  - destruct (smem _ seen); [discriminate|]. injection X as _ <-. first [apply C, Fx|unfold chide; destruct (String.eqb _ _); [reflexivity|exact N]].
  - destruct (st "sum") as [(t & v)|] eqn:S; [|discriminate]. destruct (ceval tile st _) as [(u & v')|]; [|discriminate]. destruct (bt_eqb t u); [|discriminate]. injection X as _ <-. apply C. intros <-. congruence.
  - destruct (st (fresh m)) as [(t & v)|]; [|discriminate]. destruct (ceval tile st e) as [(u & [q|lw|? ? ? ?|? ?])|]; try discriminate. destruct (match field_type t with Some _ => _ | None => _ end); [|discriminate].
    destruct (set_field v k lw); [|discriminate]. injection X as _ <-. apply C, Fx.
Qed.

(** ** arguments *)
Section Args.
  Variables (d : dtype) (r : env).
  Lemma header_names params : forall vs hs rest, called_with r params vs ->
    mapR (fun p => x <- name_of p ;; u <- type_of p ;; h <- header_type d u ;; Ok (x, h)) params = Ok hs ->
    forall x h v, In ((x, h), v) (combine (hs ++ rest) vs) -> r x = Some (emb v) /\ proper v.
  Proof.
    induction params as [|p params IH]; intros vs hs rest C E x h v X; inversion C as [|? v0 ? vs' (y & N & R & P) C']; subst; cbn [mapR] in E.
    - injection E as <-. destruct rest; destruct X.
    - rewrite N in E. cbn [bindR] in E. destruct (type_of p); [|discriminate]. cbn [bindR] in E. destruct (header_type d _); [|discriminate]. cbn [bindR] in E.
      destruct (mapR _ params) as [hs'|] eqn:M; [|discriminate]. injection E as <-. destruct X as [X|X].
      + injection X as <- _ <-. auto.
      + exact (IH _ _ _ C' eq_refl _ _ _ X).
  Qed.
End Args.
Lemma scalar_args_in x : forall hs vs t w, scalar_args hs vs x = Some (t, w) -> exists h z, In ((x, h), DZ z) (combine hs vs) /\ w = Sc (inject_Z z).
Proof.
  unfold scalar_args. intros hs vs. generalize (combine hs vs). induction l as [|((y & h) & v) l IH]; cbn; [discriminate|]. intros t w E.
  assert (H : fold_right (fun (x : (string * ht) * dval) st => match x with
    | ((y, HUINT8), DZ z) => cset st y (UINT8, Sc (inject_Z z))
    | ((y, HINT32), DZ z) => cset st y (INT32C, Sc (inject_Z z))
    | ((y, HFLOAT), DZ z) => cset st y (FLOATC, Sc (inject_Z z)) | _ => st end) (fun _ => None) l x = Some (t, w) -> exists h' z, (((y, h), v) = ((x, h'), DZ z) \/ In (x, h', DZ z) l) /\ w = Sc (inject_Z z)).
  { intros A. destruct (IH _ _ A) as (h' & z & B & C). eauto. }
  destruct h, v as [z|z|z|z|z]; auto; unfold cset at 1 in E; destruct (String.eqb_spec y x) as [->|_]; auto; injection E as _ <-; eauto.
Qed.
Lemma tensor_args_in x : forall hs vs t, tensor_args hs vs x = Some t -> exists h v, In ((x, h), v) (combine hs vs) /\ tensor_of v = Some t.
Proof.
  unfold tensor_args. intros hs vs. generalize (combine hs vs). induction l as [|((y & h) & v) l IH]; cbn; [discriminate|]. intros t E.
  destruct h; try (destruct (IH _ E) as (h' & v' & A & B); eauto). destruct (String.eqb_spec y x) as [->|_]; [eauto|]. destruct (IH _ E) as (h' & v' & A & B); eauto.
Qed.
Lemma tensor_elem v t c j z : tensor_of v = Some t -> elem v c j = Some z -> t c j = inject_Z z.
Proof.
  destruct v as [y|y|l|m|l]; try discriminate; cbn; intros [= <-] E.
  - rewrite (nth_error_nth _ _ _ E). reflexivity.
  - destruct (nth_error m j) as [row|] eqn:R; [|discriminate]. rewrite (nth_error_nth _ _ _ R), (nth_error_nth _ _ _ E). reflexivity.
Qed.

(** ** one round *)
Section Round.
  Variables (fns : list (string * expr)) (d : dtype) (I : interp) (r : env) (params : list expr) (vs : list dval) (hs : list (string * ht)) (rest : list (string * ht)).
  Hypothesis TL : tensor_like fns I.
  Hypothesis Fr : forall n, r (fresh n) = None.
  Hypothesis Fs : r "sum" = None.
  Hypothesis Cw : called_with r params vs.
  Hypothesis Hs : mapR (fun p => x <- name_of p ;; u <- type_of p ;; h <- header_type d u ;; Ok (x, h)) params = Ok hs.
  Let st0 := scalar_args (hs ++ rest) vs.

  Lemma st0_none x : r x = None -> st0 x = None.
  Proof.
    intros N. destruct (st0 x) as [(t & w)|] eqn:E; [|reflexivity]. apply scalar_args_in in E as (h & z & A & _). destruct (header_names _ _ _ _ _ _ Cw Hs _ _ _ A) as (R & _). congruence.
  Qed.

  Lemma round_value body t s' loc i x tensors o j v k z tile seen stf :
    gen fns d body (Some t) [] (0, []) s' loc i -> allowed d t -> i_dest i = Some x ->
    summary_suits fns d I r body -> eval I r body = Some (emb v) -> proper v -> elem v (o + k) j = Some z ->
    tensors = tensor_args (hs ++ rest) vs -> (forall y l, tile y = Some l -> exists tn, tensors y = Some tn /\ forall k, l k = tn (o + k) j) ->
    cexecs tile seen st0 (dedup [] loc) = Some stf ->
    exists u w, stf x = Some (u, w) /\ is w k z.
  Proof.
    intros Gn A X S E P N -> Tl C. destruct (gen_whole _ _ _ _ _ _ _ Gn) as (log & G & L & Li & _).
    assert (Ld : incl (dedup [] loc) log) by (intros a B; apply L, (dedup_part [] loc), B).
    assert (Kf : forall a y m, In a log -> key a = Some (y, m) -> exists n, y = fresh n).
    { intros a y m B K. apply In_nth_error in B as (n & B). apply G in B. destruct B; cbn in K; try discriminate K; injection K as K _; rewrite <- K; eexists; reflexivity. }
    assert (Rd : ready st0 (dedup [] loc)).
    { split; [|split].
      - intros a y B K. destruct (Kf a y 0 (Ld _ B) K) as (n & ->). apply st0_none, Fr.
      - intros a y m u w B K Q. destruct (Kf a y _ (Ld _ B) K) as (n & ->). rewrite (st0_none _ (Fr n)) in Q. discriminate.
      - intros u w Q. rewrite (st0_none _ Fs) in Q. discriminate. }
    destruct (execs_holds tile log G (dedup [] loc) seen st0 stf Ld (dedup_keys log G loc L) Rd C) as (Gr & Hl).
    assert (Sum : stf "sum" = None). { apply (cexecs_none tile log "sum" G) with (l := dedup [] loc) (seen := seen) (st := st0); auto; [intros n Q; discriminate Q|apply st0_none, Fs]. }
    assert (Hl' : Forall (holds tile stf) loc).
    { apply Forall_forall. intros a B. assert (B0 : incl [] log) by (intros ? []). destruct (dedup_whole log G [] loc a B0 L B) as [[]|D]. exact (proj1 (Forall_forall _ _) Hl a D). }
    assert (Env : forall y v', r y = Some (emb v') -> proper v' ->
      (forall l, tile y = Some l -> forall k z, elem v' (o + k) j = Some z -> (l k == inject_Z z)%Q) /\
      (forall t w, stf y = Some (t, w) -> exists z q, v' = DZ z /\ w = Sc q /\ (q == inject_Z z)%Q)).
    { intros y v' R P'. split.
      - intros l T k' z' N'. destruct (Tl _ _ T) as (tn & Tn & El). rewrite El. apply tensor_args_in in Tn as (h & v2 & B & Tn).
        destruct (header_names _ _ _ _ _ _ Cw Hs _ _ _ B) as (R2 & P2). rewrite R in R2. injection R2 as R2. apply (emb_inj _ _ P' P2) in R2. subst v2. rewrite (tensor_elem _ _ _ _ _ Tn N'). reflexivity.
      - intros u w T. assert (Ny : forall n, y <> fresh n) by (intros n ->; rewrite Fr in R; discriminate).
        destruct (st0 y) as [(u0 & w0)|] eqn:S0.
        + destruct (Gr _ _ _ S0) as (w' & T' & V). rewrite T in T'. injection T' as <- <-. unfold st0 in S0. apply scalar_args_in in S0 as (h & z' & B & ->).
          destruct (header_names _ _ _ _ _ _ Cw Hs _ _ _ B) as (R2 & P2). rewrite R in R2. injection R2 as R2. apply (emb_inj _ _ P' P2) in R2. subst v'.
          exists z', (inject_Z z'). split; [reflexivity|]. split; [|reflexivity]. apply vle_complete in V; [auto|reflexivity].
        + rewrite (cexecs_none tile log y G Ny _ _ _ _ Ld C S0) in T. discriminate. }
    destruct (gen_value tile stf d fns r o j) with (e := body) (ov := Some t) (vars := @nil (string * expr)) (s := (0, @nil ((expr * bt) * (list instr * instr)))%nat) (s' := s') (loc := loc) (i := i) as (_ & V); auto.
    - intros u w Q. congruence.
    - intros ? ? ? ? [].
    - intros u [= <-]. exact A.
    - destruct (V Hl') as (_ & V'). destruct (V' false k z) as (u & y & w & _ & Y & Sy & Is & _); [discriminate| |rewrite X in Y; injection Y as <-; eauto].
      eapply whole_den; eauto.
  Qed.
End Round.

(** ** all rounds *)
Definition writes (val : nat -> nat -> Q -> Prop) (hit : nat -> nat -> bool) (a b : tensor) : Prop :=
  forall c r, (hit c r = true -> val c r (b c r)) /\ (hit c r = false -> b c r = a c r).
Lemma rounds_writes (val : nat -> nat -> Q -> Prop) (hit : nat -> nat -> nat -> bool) step : forall n i out out',
  (forall i0 a b, i <= i0 < i + n -> step i0 a = Some b -> writes val (hit i0) a b) -> rounds n i step out = Some out' ->
  writes val (fun c r => existsb (fun i0 => hit i0 c r) (seq i n)) out out'.
Proof.
  induction n as [|n IH]; intros i out out' St E c r; cbn [rounds] in E.
  - injection E as <-. split; [discriminate|reflexivity].
  - destruct (step i out) as [mid|] eqn:S1; [|discriminate]. destruct (IH (S i) mid out') with (c := c) (r := r) as (A & B); auto. { intros i0 a b L. apply St. lia. }
    destruct (St i out mid ltac:(lia) S1 c r) as (C & D). cbn [seq existsb]. destruct (existsb _ (seq (S i) n)).
    + split; [auto|]. rewrite orb_true_r. discriminate.
    + rewrite orb_false_r. specialize (B eq_refl). rewrite B. auto.
Qed.

Section Whole.
  Variables (fns : list (string * expr)) (d : dtype) (I : interp) (r : env) (vs : list dval) (v : dval).
  Definition right_at (c row : nat) (q : Q) : Prop := forall z, elem v c row = Some z -> (q == inject_Z z)%Q.
  Definition covered (L i c : nat) : bool := Nat.leb (i * L) c && Nat.ltb c ((i + 1) * L).

  Lemma kernel_writes n ps k body i0 ni j0 nj out out' :
    gaudi_kernel fns d n ps = Ok k -> decl_body ps = Ok body -> tensor_like fns I ->
    (forall n, r (fresh n) = None) -> r "sum" = None -> called_with r (decl_params ps) vs ->
    summary_suits fns d I r body -> eval I r body = Some (emb v) -> proper v ->
    run k (scalar_args (k_params k) vs) (tensor_args (k_params k) vs) i0 ni j0 nj out = Some out' ->
    writes right_at (fun c row => existsb (fun i => covered (vec_len d) i c && match k_shape k with TwoDim => existsb (Nat.eqb row) (seq j0 nj) | _ => Nat.eqb row 0 end) (seq i0 ni)) out out'.
  Proof.
    intros K B TL Fr Fs Cw S E P R. unfold gaudi_kernel in K. destruct ps as [|kd t [|[[f| | |]|] [|b params]]]; try discriminate K; try (destruct kd; discriminate K).
    assert (Kd : decl_body (Node kd t (Atom (PStr f) :: b :: params)) = Ok b /\ decl_params (Node kd t (Atom (PStr f) :: b :: params)) = params) by (destruct kd; try discriminate B; auto).
    destruct Kd as (K1 & K2). rewrite K1 in B. injection B as ->. rewrite K2 in Cw. clear K1 K2.
    assert (K' : exists ret, fn_return_type t = Ok ret /\ (if negb (is_list_type ret) && negb (is_matrix_type ret) && negb (is_reduce_sum body) then Err ExNYI
        else
          hs <- mapR (fun p => x <- name_of p ;; u <- type_of p ;; h <- header_type d u ;; Ok (x, h)) params ;;
          hr <- header_type d ret ;;
          r <- codegen fns d n body (if is_list_type ret || is_matrix_type ret then Some match d with UINT_8 => UCHAR256 | INT32 => INT64 | FLOAT => FLOAT64 end else None) [] (0, []) ;;
          x <- dest_of (snd (snd r)) ;;
          Ok {| k_params := (hs ++ [((f ++ "_rv")%string, hr)])%list; k_vec_len := vec_len d;
                k_shape := if is_reduce_sum body then Reduction else if is_matrix_type ret then TwoDim else OneDim;
                k_body := dedup [] (fst (snd r));
                k_store := ("v_" ++ fn_dtype d ++ "_st_tnsr")%string; k_rv := (f ++ "_rv")%string; k_result := x |}) = Ok k).
    { destruct kd; try discriminate K; (destruct (fn_return_type t) as [ret|]; [|discriminate K]); exists ret; (split; [reflexivity|exact K]). }
    clear K. destruct K' as (ret & _ & K).
    assert (Nr : is_reduce_sum body = false).
    { destruct body as [|kb tb args]; [reflexivity|]. destruct S as (_ & S). destruct kb; try reflexivity; try contradiction S. destruct args as [|[[g| | |]|] rest]; try reflexivity. cbn [is_reduce_sum].
      destruct (String.eqb_spec g "reduce_sum") as [->|_]; [|reflexivity]. destruct S as (_ & S). cbn in S. destruct S as (S & _). discriminate S. }
    rewrite Nr in K. cbn [negb] in K. rewrite andb_true_r in K.
    assert (Ov : is_list_type ret || is_matrix_type ret = true) by (destruct (is_list_type ret), (is_matrix_type ret); try discriminate K; reflexivity).
    replace (negb (is_list_type ret) && negb (is_matrix_type ret)) with false in K by (destruct (is_list_type ret), (is_matrix_type ret); try discriminate Ov; reflexivity).
    rewrite Ov in K.
    destruct (mapR _ params) as [hs|] eqn:Hs; [|discriminate]. cbn [bindR] in K. destruct (header_type d ret) as [hr|]; [|discriminate]. cbn [bindR] in K.
    destruct (codegen fns d n body _ [] (0, [])) as [(s' & (loc & i))|] eqn:G; [|discriminate]. cbn [bindR fst snd] in K. apply codegen_gen in G. cbn [fst snd] in G.
    unfold dest_of in K. destruct (i_dest i) as [x|] eqn:X; [|discriminate]. injection K as <-.
    assert (Rw : forall i1 j1 a b, round {| k_params := (hs ++ [((f ++ "_rv")%string, hr)])%list; k_vec_len := vec_len d;
                k_shape := if is_matrix_type ret then TwoDim else OneDim;
                k_body := dedup [] loc;
                k_store := ("v_" ++ fn_dtype d ++ "_st_tnsr")%string; k_rv := (f ++ "_rv")%string; k_result := x |} (scalar_args (hs ++ [((f ++ "_rv")%string, hr)]) vs) (tensor_args (hs ++ [((f ++ "_rv")%string, hr)]) vs) i1 j1 a = Some b ->
      writes right_at (fun c row => covered (vec_len d) i1 c && Nat.eqb row j1) a b).
    { intros i1 j1 a b Rd c row. unfold round in Rd. cbn [k_body k_result] in Rd. destruct (cexecs _ _ _ _) as [stf|] eqn:C; [|discriminate].
      unfold stored in Rd. cbn [k_store k_params k_rv k_vec_len] in Rd. destruct (stf x) as [(tx & wx)|] eqn:Sx; [|discriminate]. destruct wx as [|lx| |]; try discriminate.
      destruct (dget stores _) as [ts|]; [|discriminate]. destruct (dget _ (f ++ "_rv")%string) as [[]|]; try discriminate. destruct (bt_eqb tx ts); [|discriminate]. injection Rd as <-.
      unfold covered. destruct (Nat.leb (i1 * vec_len d) c) eqn:Lc; [|rewrite andb_false_r; split; [discriminate|reflexivity]]. apply Nat.leb_le in Lc.
      destruct (Nat.eqb_spec row j1) as [->|_]; [|rewrite andb_false_r; split; [discriminate|reflexivity]]. cbn [andb]. rewrite andb_true_r.
      destruct (Nat.ltb c ((i1 + 1) * vec_len d)) eqn:Lh; split; try discriminate; try reflexivity. intros _ z Z.
      eapply (round_value fns d I r params vs hs [((f ++ "_rv")%string, hr)] TL Fr Fs Cw Hs body) with (o := i1 * vec_len d) (j := j1) (k := c - i1 * vec_len d) (z := z) in C as (u & w & W & Is); [|exact G|destruct d; cbn; auto|exact X|exact S|exact E|exact P| |reflexivity|].
      - rewrite Sx in W. injection W as _ <-. apply is_ve, Is.
      - replace (i1 * vec_len d + (c - i1 * vec_len d)) with c by lia. exact Z.
      - unfold tile_at. cbn [k_vec_len]. intros y l T. destruct (tensor_args _ _ y) as [tn|]; [|discriminate]. injection T as <-. exists tn. split; reflexivity. }
    unfold run in R. cbn [k_shape k_params] in R |- *. destruct (is_matrix_type ret).
    - eapply (rounds_writes right_at (fun i c row => covered (vec_len d) i c && existsb (Nat.eqb row) (seq j0 nj))) in R; [exact R|].
      intros i1 a b _ R1 c row. eapply (rounds_writes right_at (fun j c row => covered (vec_len d) i1 c && Nat.eqb row j)) in R1; [|intros j1 a' b' _; apply Rw].
      specialize (R1 c row). cbv beta in R1. replace (existsb (fun j => covered (vec_len d) i1 c && Nat.eqb row j) (seq j0 nj)) with (covered (vec_len d) i1 c && existsb (Nat.eqb row) (seq j0 nj)) in R1; [exact R1|].
      generalize (seq j0 nj). induction l as [|j l IH]; cbn; [apply andb_false_r|]. rewrite <- IH. destruct (covered _ _ _); reflexivity.
    - eapply (rounds_writes right_at (fun i c row => covered (vec_len d) i c && Nat.eqb row 0)) in R; [exact R|]. intros i1 a b _. apply Rw.
  Qed.
End Whole.

(** ** the parts of a kernel *)
Lemma kernel_inv fns d n ps k : gaudi_kernel fns d n ps = Ok k ->
  exists t f body params ret hs hr ov s' loc i x,
    (exists kd, ps = Node kd t (Atom (PStr f) :: body :: params)) /\ decl_body ps = Ok body /\ decl_params ps = params /\ fn_return_type t = Ok ret /\
    mapR (fun p => x <- name_of p ;; u <- type_of p ;; h <- header_type d u ;; Ok (x, h)) params = Ok hs /\ header_type d ret = Ok hr /\
    gen fns d body ov [] (0, []) s' loc i /\ i_dest i = Some x /\
    k = {| k_params := (hs ++ [((f ++ "_rv")%string, hr)])%list; k_vec_len := vec_len d;
           k_shape := if is_reduce_sum body then Reduction else if is_matrix_type ret then TwoDim else OneDim;
           k_body := dedup [] loc; k_store := ("v_" ++ fn_dtype d ++ "_st_tnsr")%string; k_rv := (f ++ "_rv")%string; k_result := x |}.
Proof.
  intros K. unfold gaudi_kernel in K. destruct ps as [|kd t [|[[f| | |]|] [|body params]]]; try discriminate K; try (destruct kd; discriminate K).
  assert (Kd : decl_body (Node kd t (Atom (PStr f) :: body :: params)) = Ok body /\ decl_params (Node kd t (Atom (PStr f) :: body :: params)) = params) by (destruct kd; try discriminate K; auto).
  destruct Kd as (K1 & K2). exists t, f, body, params.
  assert (K' : exists ret, fn_return_type t = Ok ret /\ (if negb (is_list_type ret) && negb (is_matrix_type ret) && negb (is_reduce_sum body) then Err ExNYI
        else
          hs <- mapR (fun p => x <- name_of p ;; u <- type_of p ;; h <- header_type d u ;; Ok (x, h)) params ;;
          hr <- header_type d ret ;;
          r <- codegen fns d n body (if is_list_type ret || is_matrix_type ret then Some match d with UINT_8 => UCHAR256 | INT32 => INT64 | FLOAT => FLOAT64 end else None) [] (0, []) ;;
          x <- dest_of (snd (snd r)) ;;
          Ok {| k_params := (hs ++ [((f ++ "_rv")%string, hr)])%list; k_vec_len := vec_len d;
                k_shape := if is_reduce_sum body then Reduction else if is_matrix_type ret then TwoDim else OneDim;
                k_body := dedup [] (fst (snd r));
                k_store := ("v_" ++ fn_dtype d ++ "_st_tnsr")%string; k_rv := (f ++ "_rv")%string; k_result := x |}) = Ok k).
  { destruct kd; try discriminate K; (destruct (fn_return_type t) as [ret|]; [|discriminate K]); exists ret; (split; [reflexivity|exact K]). }
  clear K. destruct K' as (ret & Rt & K). exists ret. destruct (negb (is_list_type ret) && negb (is_matrix_type ret) && negb (is_reduce_sum body)); [discriminate|].
  destruct (mapR _ params) as [hs|] eqn:Hs; [|discriminate]. cbn [bindR] in K. destruct (header_type d ret) as [hr|] eqn:Hr; [|discriminate]. cbn [bindR] in K.
  destruct (codegen fns d n body _ [] (0, [])) as [(s' & (loc & i))|] eqn:G; [|discriminate]. cbn [bindR fst snd] in K. apply codegen_gen in G. cbn [fst snd] in G.
  unfold dest_of in K. destruct (i_dest i) as [x|] eqn:X; [|discriminate]. injection K as <-.
  exists hs, hr. eexists. exists s', loc, i, x. repeat split; eauto.
Qed.

(** ** names *)
Lemma key_declares i x : declares i x -> key i = Some (x, 0).
Proof. intros (E & t & T). unfold key. rewrite E, T. reflexivity. Qed.
Lemma keys_app l m : keys (l ++ m) = keys l ++ keys m.
Proof. unfold keys. apply flat_map_app. Qed.

Lemma kernel_names fns d n ps k body : gaudi_kernel fns d n ps = Ok k -> decl_body ps = Ok body ->
  (forall p i q x, k_body k = p ++ i :: q -> declares i x -> (exists m, x = fresh m) /\ forall j, In j (p ++ q) -> ~ declares j x) /\
  (forall p i q x, k_body k = p ++ i :: q -> In x (ireads i) -> src_of fns body x \/ exists j, In j p /\ declares j x) /\
  (k_result k = "sum" \/ exists i, In i (k_body k) /\ declares i (k_result k)).
Proof.
  intros K B. destruct (kernel_inv _ _ _ _ _ K) as (t & f & body' & params & ret & hs & hr & ov & s' & loc & i & x & _ & B' & _ & _ & _ & _ & G & X & ->). rewrite B in B'. injection B' as <-. clear K B. cbn [k_body k_result].
  destruct (gen_whole _ _ _ _ _ _ _ G) as (log & Gd & L & Li & C). assert (Ld : incl (dedup [] loc) log) by (intros a A; apply L, (dedup_part [] loc), A).
  assert (Dc : forall j y, In j log -> i_dest j = Some y -> y = "sum" \/ (declares j y /\ exists m, y = fresh m)).
  { intros j y J D. apply In_nth_error in J as (m & J). apply Gd in J. destruct J; cbn in D; try discriminate D; injection D as D; subst y; try (left; reflexivity); right; (split; [split; [reflexivity|eexists; reflexivity]|eexists; reflexivity]). }
  split; [|split].
  - intros p a q y E D. assert (Ia : In a (dedup [] loc)) by (rewrite E; apply in_or_app; cbn; auto). split.
    + destruct (Dc a y (Ld _ Ia) (proj1 D)) as [-> |(_ & M)]; [|exact M]. exfalso. destruct (In_nth_error _ _ (Ld _ Ia)) as (m & Q). apply Gd in Q. destruct D as (D1 & u & D2). destruct Q; cbn in D1, D2; discriminate.
    + intros j J Dj. pose proof (dedup_keys log Gd loc L) as N. rewrite E, keys_app in N. change (keys (a :: q)) with ((match key a with Some k => [k] | None => [] end) ++ keys q) in N.
      rewrite (key_declares _ _ D) in N. cbn [app] in N. apply NoDup_remove_2 in N. apply N. rewrite <- keys_app. apply in_flat_map. exists j. rewrite (key_declares _ _ Dj). cbn. auto.
  - intros p a q y E R. destruct (dedup_closed log Gd _ loc L C p a q E y R) as [A|A]; [auto|]. apply in_map_iff in A as (j & Ej & J).
    assert (Jl : In j log) by (apply Ld; rewrite E; apply in_or_app; auto). destruct (Dc j y Jl Ej) as [-> |(D & _)]; [left; left; cbn; auto 6|eauto].
  - destruct (Dc i x (L _ Li) X) as [-> |(D & _)]; [auto|]. right. exists i. split; [|exact D]. assert (B0 : incl [] log) by (intros ? []). destruct (dedup_whole log Gd [] loc i B0 L Li) as [[]|Dd]. exact Dd.
Qed.

(** ** reductions *)
Lemma sum_stuck tile log e i : good log -> i_dest i = Some "sum" -> i_type i = None -> i_exp i = Some e -> forall l seen st, incl l log -> In i l -> st "sum" = None -> cexecs tile seen st l = None.
Proof.
  intros G D T X. induction l as [|a l IH]; intros seen st L H N; [destruct H|]. cbn [cexecs]. destruct H as [->|H].
  - unfold cexec. rewrite D, T, X, N. reflexivity.
  - destruct (cexec tile seen st a) as [(seen' & st')|] eqn:E; [|reflexivity]. apply IH; [intros b B; apply L; cbn; auto|exact H|].
    apply (cexecs_none tile log "sum" G) with (l := [a]) (seen := seen) (st := st); [intros m Q; discriminate Q| |cbn [cexecs]; rewrite E; reflexivity|exact N]. intros b [<-|[]]. apply L. cbn. auto.
Qed.
Lemma reduction_stuck fns d n ps k scalars tensors i0 ni j0 nj out : gaudi_kernel fns d n ps = Ok k -> k_shape k = Reduction -> 0 < ni ->
  run k scalars tensors i0 ni j0 nj out = None.
Proof.
  intros K Sh P. destruct (kernel_inv _ _ _ _ _ K) as (t & f & body & params & ret & hs & hr & ov & s' & loc & i & x & _ & _ & _ & _ & _ & _ & G & X & ->). clear K. cbn [k_shape] in Sh.
  destruct (is_reduce_sum body) eqn:Rs; [|destruct (is_matrix_type ret); discriminate Sh]. clear Sh.
  destruct (gen_whole _ _ _ _ _ _ _ G) as (log & Gd & L & Li & _). assert (Ld : incl (dedup [] loc) log) by (intros a A; apply L, (dedup_part [] loc), A).
  assert (Si : exists e, i = mkI (Some "sum") None (Some e)).
  { destruct body as [|kb tb [|[[g| | |]|] rest]]; try discriminate Rs; try (destruct kb; discriminate Rs). assert (g = "reduce_sum") as -> by (destruct kb; try discriminate Rs; apply String.eqb_eq; exact Rs).
    assert (Kb : kb = KCall \/ kb = KTargetCall) by (destruct kb; try discriminate Rs; auto). clear Rs.
    inversion G; subst; try discriminate; try (match goal with H : is_var _ |- _ => destruct Kb as [-> | ->]; destruct H; discriminate end); try (destruct Kb; discriminate);
      try (match goal with H : c_op _ = Some _ |- _ => destruct Kb as [-> | ->]; discriminate H end); try (match goal with H : c_op _ <> None |- _ => exfalso; apply H; destruct Kb as [-> | ->]; reflexivity end);
      try (match goal with H : emit _ _ _ _ _ = Ok _ |- _ => unfold emit in H; cbn in H; injection H as _ _ <-; eexists; reflexivity end). }
  destruct Si as (e & Si). assert (x = "sum") as -> by (rewrite Si in X; injection X as <-; reflexivity).
  unfold run. cbn [k_shape]. destruct ni as [|ni]; [lia|]. cbn [rounds]. unfold reduction_round. cbn [k_result k_body].
  rewrite (sum_stuck _ log e i Gd); [reflexivity|rewrite Si; reflexivity|rewrite Si; reflexivity|rewrite Si; reflexivity|exact Ld| |unfold chide; rewrite String.eqb_refl; reflexivity].
  assert (B0 : incl [] log) by (intros ? []). destruct (dedup_whole log Gd [] loc i B0 L Li) as [[]|Dd]. exact Dd.
Qed.
