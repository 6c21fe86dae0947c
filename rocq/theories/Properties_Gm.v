(** C57: a kernel that is generated for Gemmini stores the value of the summary. *)

From Coq Require Import String Ascii List ZArith Bool Lia.
From Verif Require Import Ast Dict Semantics SmtPrint UtilProofs LibSem RktModel SmtPrelude SmtProofs TensDemo Properties_Smt Properties_Tens PyGram NpModel NpSem NpProofs4 Properties_Np Properties_Gd
  GmModel GmSem GmProofs1 GmProofs2 GmProofs3 GmProofs4.
Import ListNotations.
Local Open Scope nat_scope.
Local Open Scope list_scope.
Local Open Scope string_scope.

(** a parameter of the summary *)
Definition param (xt : string * ty) : expr := Node KVar (snd xt) [Atom (PStr (fst xt))].
(** types that a parameter can have *)
Definition param_type (t : ty) : Prop := is_array t = true \/ t = TInt \/ t = TBool.
(** the state in which a kernel is called: parameters have their values, [out] is an array *)
Definition called (params : list (string * ty)) (r : env) (st : state) : Prop :=
  (forall x t v, In (x, t) params -> r x = Some (emb v) -> proper v -> holds st x v) /\ exists m, st "out" = Some (Arr m).

Lemma fold_other (l : dims) x : forall D, ~ In x (map fst l) -> dget (fold_left (fun (m : dims) xd => dset m (fst xd) (snd xd)) l D) x = dget D x.
Proof.
  induction l as [|(y & w) l IH]; intros D N; cbn; [reflexivity|]. rewrite IH by (intros X; apply N; right; exact X). rewrite dget_dset.
  destruct (String.eqb_spec x y) as [->|_]; [exfalso; apply N; left; reflexivity|reflexivity].
Qed.
Lemma fold_in (l : dims) x w : forall D, NoDup (map fst l) -> In (x, w) l -> dget (fold_left (fun (m : dims) xd => dset m (fst xd) (snd xd)) l D) x = Some w.
Proof.
  induction l as [|(y & u) l IH]; intros D N E; [contradiction E|]. cbn in N. inversion N as [|? ? N1 N2]; subst. destruct E as [E|E]; cbn.
  - injection E as -> ->. rewrite fold_other by exact N1. rewrite dget_dset, String.eqb_refl. reflexivity.
  - apply IH; assumption.
Qed.
Lemma substring_all s t : substring 0 (String.length s) (s ++ t) = s.
Proof. induction s as [|c s IH]; cbn; [destruct t; reflexivity|rewrite IH; reflexivity]. Qed.
Lemma drop3_ps p : drop3 (p ++ "_ps") = p.
Proof. unfold drop3. replace (String.length (p ++ "_ps") - 3) with (String.length p); [apply substring_all|].
  assert (E : String.length (p ++ "_ps") = String.length p + 3) by (induction p as [|c p IH]; cbn; [reflexivity|rewrite IH; reflexivity]). rewrite E. lia.
Qed.
Lemma type_dims_ok t : param_type t -> exists dm, type_dims t = Ok dm /\ (is_array t = true -> dm = LL).
Proof.
  intros [A|[->| ->]]; [|exists ("1", "1"); split; [reflexivity|discriminate]..]. exists LL. unfold type_dims. rewrite A. split; reflexivity.
Qed.

(** For every summary with parameters of the supported types whose body [fits] (GmSem.v: the
    functions for which the templates are right, all values in the range of [elem_t], at most
    LEN elements in a direction), the generator makes a kernel with the name, the parameters
    and the kind of result of the summary.  Called with the values of the parameters it
    terminates, stores the value of the summary in [out] and leaves the parameters as they
    were; no other run is possible. *)
Theorem C57_kernel_partial fns d len junk I r kd t p body params ret v :
  0 < len -> (Z.of_nat len <= 32767)%Z -> follows tmean I -> In kd [KFnDeclRec; KFnDecl; KTarget] ->
  fn_return_type t = Ok ret -> is_array ret = true ->
  NoDup (map fst params) -> Forall (fun xt => free_name (fst xt) /\ param_type (snd xt)) params ->
  fits len params r true body v ->
  eval I r body = Some (emb v) /\
  exists n0, forall n, n0 <= n -> exists k,
    gemmini_kernel fns d n (Node kd t (Atom (PStr (p ++ "_ps")) :: body :: map param params)) = Ok k /\
    g_name k = p ++ "_gemmini" /\ g_params k = params /\ g_array k = true /\
    forall st, called params r st ->
      (exists st', steps len junk (g_body k) st st') /\
      forall st', steps len junk (g_body k) st st' -> holds st' "out" v /\ forall x u, In (x, u) params -> st' x = st x.
Proof.
  intros Pos Small Lib Kd Rt Ar Nd Ps F. split; [exact (fits_value I len params r Lib true body v F)|].
  assert (Names : forall x u, In (x, u) params -> free_name x) by (intros x u P; apply (proj1 (Forall_forall _ _) Ps (x, u) P)).
  destruct (fits_computes fns d len junk params r Pos Small Names true body v F eq_refl) as (m0 & H). exists m0. intros n L.
  assert (M1 : mapR (fun p => x <- name_of p ;; u <- type_of p ;; _ <- type_dims u ;; Ok (x, u)) (map param params) = Ok params).
  { clear - Ps. induction Ps as [|(x & u) l (_ & T) Ps IH]; [reflexivity|]. destruct (type_dims_ok u T) as (dm & E & _). cbn in E |- *. rewrite E. cbn. rewrite IH. reflexivity. }
  assert (M2 : exists ds, mapR (fun xu => dm <- type_dims (snd xu) ;; Ok (fst xu, dm)) params = Ok ds /\ map fst ds = map fst params /\
    forall x u, In (x, u) params -> is_array u = true -> In (x, LL) ds).
  { clear - Ps. induction Ps as [|(x & u) l (_ & T) Ps (ds & E1 & E2 & E3)]; [exists []; repeat split; intros ? ? []|]. destruct (type_dims_ok u T) as (dm & E & Ed). exists ((x, dm) :: ds). cbn in E, T |- *. rewrite E. cbn. rewrite E1. cbn.
    split; [reflexivity|]. split; [rewrite E2; reflexivity|]. intros y w [Q|Q] A; [injection Q as <- <-; left; rewrite (Ed A); reflexivity|right; exact (E3 y w Q A)]. }
  destruct M2 as (ds & M2 & Mf & Min).
  assert (Dr : type_dims ret = Ok LL) by (unfold type_dims; rewrite Ar; reflexivity).
  set (vd := fold_left (fun (m : dims) xd => dset m (fst xd) (snd xd)) (ds ++ [("out", LL)]) []).
  assert (K : known params vd).
  { intros x u P A. apply fold_in; [|apply in_or_app; left; exact (Min x u P A)]. rewrite map_app, Mf. cbn. apply NoDup_Add with (a := "out") (l := map fst params); [|split; [exact Nd|]].
    - pose proof (Add_app "out" (map fst params) []) as Q. rewrite app_nil_r in Q. exact Q.
    - intros Q. apply in_map_iff in Q as ((y & w) & E & Q). cbn in E. subst y. destruct (Names "out" w Q) as (_ & N & _). apply N. cbn. auto. }
  destruct (H n L "out" 0 vd K) as (n' & D' & l & t' & E & A & Ln & X & C & Run).
  exists {| g_name := p ++ "_gemmini"; g_params := params; g_array := true; g_body := l |}. split; [|cbn; split; [reflexivity|split; [reflexivity|split; [reflexivity|]]]].
  - assert (G : gemmini_kernel fns d n (Node KFnDecl t (Atom (PStr (p ++ "_ps")) :: body :: map param params)) = Ok {| g_name := p ++ "_gemmini"; g_params := params; g_array := true; g_body := l |}).
    { unfold gemmini_kernel. rewrite Rt. cbn [bindR]. rewrite M1. cbn [bindR]. rewrite M2. cbn [bindR]. rewrite Dr. cbn [bindR]. cbv zeta. fold vd. rewrite E. cbn [bindR fst snd stms_of]. rewrite Ar, drop3_ps. reflexivity. }
    cbn in Kd. destruct Kd as [<-|[<-|[<-|Kd]]]; [exact G|exact G|exact G|contradiction Kd].
  - intros st (V & m & Em). destruct (Run st m V) as (st1 & S1 & H1 & F1); [|exact Em|].
    { split; [intros x u P ->; destruct (Names "out" u P) as (_ & N & _); apply N; cbn; auto|]. intros k _ Q. unfold temp in Q. discriminate Q. }
    split; [exists st1; exact S1|]. intros st' S'. rewrite (steps_fun len junk l st st' st1 S' S1). split; [exact H1|].
    intros x u P. destruct (Names x u P) as (_ & N & T). apply F1; [intros ->; apply N; cbn; auto|intros k _; apply T].
Qed.
Print Assumptions C57_kernel_partial.

(** ** a case: scaled sum, products, a number, a selection *)
Definition vi : ty := TList TInt.
Definition v_ (x : string) (t : ty) : expr := Node KVar t [Atom (PStr x)].
Definition i_ (z : Z) : expr := Node KLit TInt [Atom (PInt z)].
Definition mix_params : list (string * ty) := [("xs", vi); ("ys", vi); ("k", TInt); ("b", TBool)].
Definition mix_body : expr :=
  Node KIte vi [v_ "b" TBool;
    call "vec_elemwise_sub" vi [call "vec_elemwise_mul" vi [v_ "xs" vi; v_ "ys" vi]; call "scalar_vec_sub" vi [Node KAdd TInt [v_ "k" TInt; i_ 1]; v_ "xs" vi]];
    call "vec_elemwise_add" vi [call "vec_scalar_mul" vi [v_ "k" TInt; v_ "xs" vi]; call "vec_scalar_mul" vi [i_ (-2); v_ "ys" vi]]].
Definition mix : expr := Node KFnDecl (TFn [vi; vi; vi; TInt; TBool]) (Atom (PStr "mix_ps") :: mix_body :: map param mix_params).
Definition mix_env (w : bool) : env := fun x =>
  if String.eqb x "xs" then Some (emb (DL [1; 2; 3]%Z)) else if String.eqb x "ys" then Some (emb (DL [-4; 5; 6]%Z))
  else if String.eqb x "k" then Some (VInt 7) else if String.eqb x "b" then Some (VBool w) else None.
Definition mix_value (w : bool) : dval := DL (if w then [-11; 4; 13] else [15; 4; 9])%Z.

Ltac sm := repeat split; try (repeat constructor; cbn; lia); cbn; try lia.
Lemma mix_fits w : fits 4 mix_params (mix_env w) true mix_body (mix_value w).
Proof.
  assert (X : fits 4 mix_params (mix_env w) false (v_ "xs" vi) (DL [1; 2; 3]%Z)) by (apply f_var; cbn; auto; sm).
  assert (Y : fits 4 mix_params (mix_env w) false (v_ "ys" vi) (DL [-4; 5; 6]%Z)) by (apply f_var; cbn; auto; sm).
  assert (N : number mix_params (mix_env w) true (v_ "k" TInt) 7) by (apply n_var; cbn; auto; lia).
  replace (mix_value w) with (if w then DL [-11; 4; 13]%Z else DL [15; 4; 9]%Z) by (destruct w; reflexivity).
  apply f_cond with (ta := vi); [cbn; auto|reflexivity| | |reflexivity|reflexivity].
  - apply (f_two 4 mix_params (mix_env w) true true "vec_elemwise_sub" vi _ _ (DL [-4; 10; 18]%Z) (DL [7; 6; 5]%Z)); try reflexivity; [cbn; auto 10| | |sm|intros _; sm].
    + apply (f_two 4 mix_params (mix_env w) false false "vec_elemwise_mul" vi _ _ (DL [1; 2; 3]%Z) (DL [-4; 5; 6]%Z)); try reflexivity; try assumption; [cbn; auto 10|sm|intros Q; cbn in Q; destruct Q as [Q|[Q|Q]]; discriminate Q || contradiction Q].
    + apply (f_from 4 mix_params (mix_env w) false false "scalar_vec_sub" vi _ _ 8%Z (DL [1; 2; 3]%Z)); try reflexivity; try assumption; [cbn; auto| |sm].
      apply (n_add mix_params (mix_env w) true true _ _ 7 1)%Z; [exact N|apply n_lit; unfold short; lia|unfold short; lia].
  - apply (f_scaled 4 mix_params (mix_env w) "vec_elemwise_add" vi vi vi true true _ _ _ _ 7%Z (-2)%Z (DL [1; 2; 3]%Z) (DL [-4; 5; 6]%Z) (DL [7; 14; 21]%Z) (DL [8; -10; -12]%Z)); try reflexivity; try assumption; [cbn; auto|apply n_lit; unfold short; lia|sm..].
Qed.
Definition mix_state (w : bool) : state := fun x =>
  if String.eqb x "xs" then Some (Arr (fun i _ => nth i [1; 2; 3] 0)%Z) else if String.eqb x "ys" then Some (Arr (fun i _ => nth i [-4; 5; 6] 0)%Z)
  else if String.eqb x "k" then Some (Num 7) else if String.eqb x "b" then Some (Num (if w then 1 else 0)) else if String.eqb x "out" then Some (Arr (fun _ _ => 0%Z)) else None.
Example C57_case (w : bool) :
  follows tmean demo_smt /\ fn_return_type (TFn [vi; vi; vi; TInt; TBool]) = Ok vi /\ is_array vi = true /\ NoDup (map fst mix_params) /\
  Forall (fun xt => free_name (fst xt) /\ param_type (snd xt)) mix_params /\ fits 4 mix_params (mix_env w) true mix_body (mix_value w) /\ called mix_params (mix_env w) (mix_state w) /\
  gemmini_kernel [] INT32 20 mix = Ok {| g_name := "mix_gemmini"; g_params := mix_params; g_array := true; g_body :=
    [SIf "b" [SDecl "temp0"; SFor1 "LEN" "temp0" "xs[i][0] * ys[i][0]"; SDecl "temp1"; SFor1 "LEN" "temp1" "(k) + (1) - xs[i][0]"; SResadd "LEN" "LEN" "1" "-1" "temp0" "temp1" "out"]
             [SResadd "LEN" "LEN" "k" "-2" "xs" "ys" "out"]] |}.
Proof.
  split; [exact (tl_lib _ _ blend_tensor)|]. split; [reflexivity|]. split; [reflexivity|]. split; [repeat constructor; cbn; intuition discriminate|].
  split; [|split; [apply mix_fits|split; [|vm_compute; reflexivity]]].
  - repeat (apply Forall_cons; [split; [split; [reflexivity|split; [cbn; intuition discriminate|intros n Q; discriminate Q]]|unfold param_type; auto]|]). apply Forall_nil.
  - split; [|exists (fun _ _ => 0%Z); reflexivity]. intros x t v P E Pr. cbn in P. repeat (destruct P as [P|P]; [injection P as <- <-; cbn in E; injection E as E|]); [..|contradiction P].
    + apply (emb_inj (DL [1; 2; 3]%Z) v Logic.I Pr) in E as <-. cbn. eexists. split; [reflexivity|]. intros i z Ei. apply nth_error_nth with (d := 0%Z) in Ei. exact Ei.
    + apply (emb_inj (DL [-4; 5; 6]%Z) v Logic.I Pr) in E as <-. cbn. eexists. split; [reflexivity|]. intros i z Ei. apply nth_error_nth with (d := 0%Z) in Ei. exact Ei.
    + apply (emb_inj (DZ 7) v Logic.I Pr) in E as <-. reflexivity.
    + apply (emb_inj (DB w) v Logic.I Pr) in E as <-. reflexivity.
Qed.

(** ** what the generated kernels get wrong *)
Definition kernel_of (t : ty) (body : expr) (params : list (string * ty)) : res gkernel :=
  gemmini_kernel [] INT32 20 (Node KFnDecl (TFn (t :: map snd params)) (Atom (PStr "f_ps") :: body :: map param params)).

Ltac reads p := match goal with W : written ?s ?q |- _ => let E := fresh in assert (E : written s p) by (exists 40; vm_compute; reflexivity); apply (written_fun _ _ _ W) in E; clear W; subst q end.

(** A number added to a vector is indexed like an array, and scaling uses a macro for numbers
    on an array; a body that is only a variable is no statement.  None of these kernels can
    run, whatever the values of [xs] and [k]. *)
Theorem C57_scalar_refuted :
  let params := [("k", TInt); ("xs", vi)] in
  let add := call "vec_scalar_add" vi [v_ "k" TInt; v_ "xs" vi] in
  let mul := call "vec_scalar_mul" vi [v_ "k" TInt; v_ "xs" vi] in
  kernel_of vi add params = Ok {| g_name := "f_gemmini"; g_params := params; g_array := true; g_body := [SFor1 "LEN" "out" "k[i][0] + xs"] |} /\
  kernel_of vi mul params = Ok {| g_name := "f_gemmini"; g_params := params; g_array := true; g_body := [SScale "xs" "k"; SCopy "xs" "out"] |} /\
  kernel_of vi (v_ "xs" vi) params = Ok {| g_name := "f_gemmini"; g_params := params; g_array := true; g_body := [SExp "xs"] |} /\
  forall len junk st m z, 0 < len -> st "xs" = Some (Arr m) -> st "k" = Some (Num z) ->
    forall st', ~ steps len junk [SFor1 "LEN" "out" "k[i][0] + xs"] st st' /\ ~ steps len junk [SScale "xs" "k"; SCopy "xs" "out"] st st' /\ ~ steps len junk [SExp "xs"] st st'.
Proof.
  split; [vm_compute; reflexivity|]. split; [vm_compute; reflexivity|]. split; [vm_compute; reflexivity|].
  intros len junk st m z Pos Ex Ek st'. split; [|split]; intros R; inversion R as [|? ? ? st1 ? S1 _]; subst; inversion S1; subst.
  - match goal with V : value_of _ _ "LEN" ?y |- _ => assert (y = Z.of_nat len) by (apply (value_fun len st "LEN"); [exact V|apply (value_len len Pos)]); subst y end.
    reads (PBin OAdd (PIndex (PIndex (PName "k") (PName "i")) (PNum 0)) (PName "xs")).
    match goal with F : for1 _ _ _ _ _ = Some _ |- _ => unfold for1, rounds in F; replace (Z.to_nat (Z.of_nat len - 0)) with (S (len - 1)) in F by lia; cbn in F; unfold at_, put in F; cbn in F; rewrite Ek in F; discriminate F end.
  - match goal with V : value_of _ _ "xs" _ |- _ => destruct V as (p & W & E); reads (PName "xs"); cbn in E; rewrite Ex in E; discriminate E end.
Qed.
Print Assumptions C57_scalar_refuted.

(** A difference that is subtracted gets no parentheses, a sum of three numbers loses one,
    and after [list_take] the sum of two vectors covers the first cells of the first row. *)
Definition cells_of (len : nat) (l : list stm) (st : state) (v : list Z) : Prop :=
  exists st' m, steps len (fun _ _ _ => 0%Z) l st st' /\ st' "out" = Some (Arr m) /\ map (fun i => m i 0) (List.seq 0 (List.length v)) = v.
Definition start (l : list (string * gv)) : state := fun x => dget l x.
Definition col (l : list Z) : gv := Arr (fun i j => if Nat.eqb j 0 then nth i l 0%Z else 0%Z).
Theorem C57_values_refuted :
  (let body := call "vec_scalar_sub" vi [Node KSub TInt [v_ "k" TInt; i_ 1]; v_ "xs" vi] in
   eval demo_smt (upd (upd no_vars "xs" (vl [5; 6]%Z)) "k" (VInt 1)) body = Some (vl [5; 6]%Z) /\
   match kernel_of vi body [("xs", vi); ("k", TInt)] with
   | Ok k => cells_of 2 (g_body k) (start [("xs", col [5; 6]%Z); ("k", Num 1); ("out", col [])]) [3; 4]%Z | Err _ => False end) /\
  (let body := call "scalar_vec_sub" vi [Node KAdd TInt [i_ 1; i_ 2; i_ 3]; v_ "xs" vi] in
   eval demo_smt (upd no_vars "xs" (vl [5; 6]%Z)) body = Some (vl [1; 0]%Z) /\
   match kernel_of vi body [("xs", vi)] with
   | Ok k => cells_of 2 (g_body k) (start [("xs", col [5; 6]%Z); ("out", col [])]) [-2; -3]%Z | Err _ => False end) /\
  (let body := call "vec_elemwise_add" vi [call "list_take" vi [v_ "xs" vi; i_ 2]; v_ "ys" vi] in
   eval demo_smt (upd (upd no_vars "xs" (vl [5; 6; 7]%Z)) "ys" (vl [1; 2]%Z)) body = Some (vl [6; 8]%Z) /\
   match kernel_of vi body [("xs", vi); ("ys", vi)] with
   | Ok k => cells_of 4 (g_body k) (start [("xs", col [5; 6; 7]%Z); ("ys", col [1; 2]%Z); ("out", col [])]) [6; 0]%Z | Err _ => False end).
Proof.
  Ltac val n := eexists; split; [exists 40; vm_compute; reflexivity|vm_compute; reflexivity].
  split; [|split].
  - split; [vm_compute; reflexivity|]. vm_compute kernel_of. cbn [g_body]. eexists. eexists. split; [|split].
    + eapply s_cons; [|apply s_nil]. eapply s_for1; [val 0|exists 40; vm_compute; reflexivity|reflexivity].
    + reflexivity.
    + vm_compute. reflexivity.
  - split; [vm_compute; reflexivity|]. vm_compute kernel_of. cbn [g_body]. eexists. eexists. split; [|split].
    + eapply s_cons; [|apply s_nil]. eapply s_for1; [val 0|exists 40; vm_compute; reflexivity|reflexivity].
    + reflexivity.
    + vm_compute. reflexivity.
  - split; [vm_compute; reflexivity|]. vm_compute kernel_of. cbn [g_body]. eexists. eexists. split; [|split].
    + eapply s_cons; [apply s_decl|]. eapply s_cons; [eapply s_for1; [val 0|exists 40; vm_compute; reflexivity|reflexivity]|]. eapply s_cons; [|apply s_nil].
      eapply s_resadd; [val 0|val 0|val 0|val 0|..]; try (cbn; lia); reflexivity.
    + reflexivity.
    + vm_compute. reflexivity.
Qed.
Print Assumptions C57_values_refuted.

(** Comparisons in conditions and division of integers have no translation, and a number that
    comes from a call is lost as an argument. *)
Theorem C57_errors_refuted :
  (forall fns d n a b x y k cur s l, In k [KGt; KGe; KEq; KLt; KLe] -> a = v_ x TInt -> b = v_ y TInt ->
     helper fns d (S (S (S (S n)))) (Node KIte vi (Node k TBool [a; b] :: l)) cur s = Err (match l with [_; _] => ExKey | _ => ExIndex end)) /\
  kernel_of vi (call "scalar_vec_sub" vi [Node KDiv TInt [v_ "k" TInt; i_ 2]; v_ "xs" vi]) [("xs", vi); ("k", TInt)] = Err ExKey /\
  kernel_of vi (call "scalar_vec_sub" vi [call "list_length" TInt [v_ "xs" vi]; v_ "xs" vi]) [("xs", vi)] = Err ExIndex /\
  kernel_of TInt (call "reduce_sum" TInt [v_ "xs" vi]) [("xs", vi)] = Ok {| g_name := "f_gemmini"; g_params := [("xs", vi)]; g_array := false; g_body := [SAverage "xs" "out" "1"; STimes "out"] |}.
Proof.
  split; [|repeat split; vm_compute; reflexivity]. intros fns d n a b x y k cur s l K -> ->. cbn in K.
  repeat (destruct K as [<-|K]; [destruct l as [|? [|? [|? ?]]]; reflexivity|]). contradiction K.
Qed.
Print Assumptions C57_errors_refuted.
