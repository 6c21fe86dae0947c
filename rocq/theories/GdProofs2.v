(** Names in the instructions for Gaudi: every variable is declared once and before it is used. *)

From Coq Require Import String Ascii List ZArith Bool Lia.
From Verif Require Import Ast Dict SmtPrint NpModel GdModel GdSem GdProofs1.
Import ListNotations.
Local Open Scope string_scope.
Local Open Scope list_scope.

(** ** what the emitting functions return *)
Definition at_ (s : gst) (n : nat) : gst := (n + fst s, snd s)%nat.
Definition conv_rhs (x : string) (a b : bt) : cexp :=
  if bt_eqb a INT128 && bt_eqb b INT64 then CField (CId x) 1
  else if is_primitive a then CId x
  else CApp ("convert_" ++ bt_text a ++ "_to_" ++ bt_text b)%string [CId x; CId (switch_of a b)].
Definition let_ (n : nat) (t : bt) (e : cexp) : instr := mkI (Some (fresh n)) (Some t) (Some e).

Lemma emit_let s loc e t r : emit s loc (Some e) (Some t) Fresh = Ok r -> r = (at_ s 1, loc ++ [let_ (fst s) t e], let_ (fst s) t e).
Proof. unfold emit. cbn. intros [= <-]. reflexivity. Qed.

Lemma convert_some s loc x a b r : convert_arg s loc x a b = Ok (Some r) ->
  bt_eqb a b = false /\ r = (at_ s 1, loc ++ [let_ (fst s) b (conv_rhs x a b)], let_ (fst s) b (conv_rhs x a b)).
Proof.
  unfold convert_arg. destruct (negb (is_primitive a) && is_primitive b); [discriminate|]. destruct (bt_eqb a b); [discriminate|].
  cbv zeta. fold (conv_rhs x a b). intros E. apply bind_ok in E as (r' & E & [= <-]). apply emit_let in E as ->. auto.
Qed.
Lemma convert_none s loc x a b : convert_arg s loc x a b = Ok None -> bt_eqb a b = true.
Proof.
  unfold convert_arg. destruct (negb (is_primitive a) && is_primitive b); [discriminate|]. destruct (bt_eqb a b); [reflexivity|].
  cbv zeta. intros E. apply bind_ok in E as (r' & E & E'). discriminate E'.
Qed.

Lemma bt_eqb_eq a b : bt_eqb a b = true <-> a = b.
Proof. split; [destruct a, b; (discriminate || reflexivity)|intros ->; destruct b; reflexivity]. Qed.

Lemma emit_as_inv s loc e t f s' loc' i : emit_as s loc e t f = Ok (s', loc', i) ->
  let n := fst s in
  let x := fresh n in
  (s' = at_ s 1 /\ loc' = loc ++ [let_ n t e] /\ i = let_ n t e /\ (f = None \/ f = Some t)) \/
  (exists u, f = Some u /\ s' = at_ s 2 /\ i = let_ (S n) u (conv_rhs x t u) /\ loc' = loc ++ [let_ n t e; i]).
Proof.
  unfold emit_as. intros E. apply bind_ok in E as (r & Er & E). apply emit_let in Er as ->. cbn [fst snd i_dest let_] in E.
  destruct f as [u|]; [|injection E as <- <- <-; left; auto].
  apply bind_ok in E as (c & Ec & E). destruct c as [r|].
  - apply convert_some in Ec as (Ne & ->). injection E as <- <- <-. right. exists u. cbn [fst at_]. repeat split; auto. rewrite <- app_assoc. reflexivity.
  - apply convert_none in Ec. apply bt_eqb_eq in Ec as ->. injection E as <- <- <-. left. auto.
Qed.

Definition set_ (m k : nat) (e : cexp) : instr := mkI None None (Some (CSet (fresh m) k e)).
Definition decl_ (m : nat) : instr := mkI (Some (fresh m)) (Some FLOAT256) None.
Definition fmul (a b : cexp) : cexp := CApp "v_f32_mul_b" [a; b].
Definition recip (a : cexp) : cexp := CApp "v_reciprocal_fast_f32" [a].
Definition quads (m : nat) (fi se : nat -> cexp) : list instr :=
  [decl_ m; set_ m 1 (fmul (fi 1) (se 1)); set_ m 2 (fmul (fi 2) (se 2)); set_ m 3 (fmul (fi 3) (se 3)); set_ m 4 (fmul (fi 4) (se 4));
   let_ (m + 5) UCHAR256 (conv_rhs (fresh m) FLOAT256 UCHAR256)]%nat.
Definition is64 (i : instr) : bool := match i_type i with Some FLOAT64 => true | _ => false end.

Lemma div_tail_inv ov l1 i1 l2 i2 s s' loc i : div_tail ov (l1, i1) (l2, i2) s = Ok (s', (loc, i)) ->
  exists x1 x2, i_dest i1 = Some x1 /\ i_dest i2 = Some x2 /\
  let n := fst s in
  let j := let_ n FLOAT64 (recip (CId x2)) in
  (is64 i1 = true /\ is64 i2 = true /\ emit_as (at_ s 1) ((l1 ++ l2) ++ [j]) (fmul (CId x1) (CId (fresh n))) FLOAT64 ov = Ok (s', loc, i)) \/
  (is64 i1 && is64 i2 = false /\ exists m,
   let fi := fun k => if is64 i1 then CId x1 else CField (CId x1) k in
   let se := fun k => if is64 i2 then CId (fresh n) else recip (CField (CId x2) k) in
   m = (if is64 i2 then S n else n) /\
   s' = at_ s (if is64 i2 then 7 else 6) /\ loc = (l1 ++ l2) ++ (if is64 i2 then [j] else []) ++ quads m fi se /\
   i = let_ (m + 5) UCHAR256 (conv_rhs (fresh m) FLOAT256 UCHAR256)%nat).
Proof.
  unfold div_tail. cbn [fst snd]. intros E. apply bind_ok in E as (x1 & X1 & E). apply bind_ok in E as (x2 & X2 & E). apply dest_ok in X1, X2.
  exists x1, x2. split; [exact X1|]. split; [exact X2|]. cbv zeta. apply bind_ok in E as (r3 & E3 & E).
  assert (F : (match i_type i1 with Some FLOAT64 => [CId x1] | _ => map (CField (CId x1)) [1; 2; 3; 4]%nat end)
              = if is64 i1 then [CId x1] else map (CField (CId x1)) [1; 2; 3; 4]%nat).
  { unfold is64. destruct (i_type i1) as [[]|]; reflexivity. }
  rewrite F in E. clear F.
  assert (G : r3 = if is64 i2 then (at_ s 1, (l1 ++ l2) ++ [let_ (fst s) FLOAT64 (recip (CId x2))], [CId (fresh (fst s))])
                   else (s, l1 ++ l2, map (fun i => recip (CField (CId x2) i)) [1; 2; 3; 4]%nat)).
  { unfold is64. destruct (i_type i2) as [[]|]; cbn in E3; injection E3 as <-; reflexivity. }
  clear E3. subst r3.
  destruct (is64 i1) eqn:I1, (is64 i2) eqn:I2; cbn [map] in E.
  - left. split; [reflexivity|]. split; [reflexivity|]. apply bind_ok in E as (((s3 & l3) & i3) & E3 & E). injection E as <- <- <-. exact E3.
  - right. split; [reflexivity|]. exists (fst s). split; [reflexivity|]. cbn in E. injection E as <- <- <-.
    rewrite <- !app_assoc. cbn [app]. unfold quads, at_, let_, set_, decl_, fmul, recip, conv_rhs. cbn -[Nat.add fresh].
    rewrite !(Nat.add_comm (fst s)). repeat split; reflexivity.
  - right. split; [reflexivity|]. exists (S (fst s)). split; [reflexivity|]. cbn in E. injection E as <- <- <-.
    rewrite <- !app_assoc. cbn [app]. unfold quads, at_, let_, set_, decl_, fmul, recip, conv_rhs. cbn -[Nat.add fresh].
    rewrite !(Nat.add_comm (S (fst s))). repeat split; reflexivity.
  - right. split; [reflexivity|]. exists (fst s). split; [reflexivity|]. cbn in E. injection E as <- <- <-.
    rewrite <- !app_assoc. cbn [app]. unfold quads, at_, let_, set_, decl_, fmul, recip, conv_rhs. cbn -[Nat.add fresh].
    rewrite !(Nat.add_comm (fst s)). repeat split; reflexivity.
Qed.

(** the cache gives an earlier result or gets this one *)
Lemma remember_inv e s loc i s' loc' i' t : remember e (s, loc, i) = Ok (s', (loc', i')) -> i_type i = Some t ->
  (cached (snd s) e t = Some (loc', i') /\ s' = s) \/
  (cached (snd s) e t = None /\ loc' = loc /\ i' = i /\ s' = (fst s, snd s ++ [((e, t), (loc, i))])).
Proof.
  unfold remember. intros E T. unfold type_of_instr in E. rewrite T in E. cbn [bindR] in E.
  destruct (cached (snd s) e t) as [o|] eqn:C; injection E; intros; subst; [left|right]; auto.
Qed.
