(** Proofs about GenModel.v (C15). *)

From Coq Require Import String Ascii List ZArith Bool Lia DecimalString.
From Verif Require Import Ast Semantics Dict UtilProofs GenModel.
Import ListNotations.
Local Open Scope list_scope.

(** ** The meaning of the generated definitions

    [s] gives the symbolic constants values.  A definition of a name that is defined
    already is an error, and so is [take] with a number that is negative or beyond the
    length; Rosette's [synthesize] considers only the values for which there is no
    error. *)
Definition consts : Type := ((string -> Z) * (string -> bool))%type.

(** Racket's [remove-duplicates] and [sort] on integers *)
Fixpoint remove_dup (l : list Z) : list Z :=
  match l with [] => [] | x :: r => x :: filter (fun y => negb (y =? x)%Z) (remove_dup r) end.
Fixpoint insert (x : Z) (l : list Z) : list Z :=
  match l with [] => [x] | y :: r => if (y <? x)%Z then y :: insert x r else x :: l end.
Definition sort (l : list Z) : list Z := fold_right insert [] l.

Fixpoint ints (l : list val) : option (list Z) :=
  match l with
  | [] => Some []
  | VInt z :: r => option_map (cons z) (ints r)
  | _ => None
  end.
Fixpoint rkt_eval (r : env) (t : rterm) : option val :=
  match t with
  | RName x => r x
  | RListOf ts => option_map VList (mapO (rkt_eval r) ts)
  | RTake t n =>
      match rkt_eval r t, r n with
      | Some (VList l), Some (VInt k) =>
          if ((0 <=? k) && (k <=? Z.of_nat (List.length l)))%Z then Some (VList (firstn (Z.to_nat k) l)) else None
      | _, _ => None
      end
  | RSorted t =>
      match rkt_eval r t with
      | Some (VList l) => option_map (fun l => VList (map VInt (sort (remove_dup l)))) (ints l)
      | _ => None
      end
  end.
(** the name that is defined *)
Definition dname (d : decl) : string := match d with DSym x _ | DDef x _ => x end.
Definition def_value (s : consts) (r : env) (d : decl) : option val :=
  match d with
  | DSym x int => Some (if int then VInt (fst s x) else VBool (snd s x))
  | DDef _ t => rkt_eval r t
  end.
Fixpoint run (s : consts) (ds : list decl) (r : env) : option env :=
  match ds with
  | [] => Some r
  | d :: ds =>
      match r (dname d), def_value s r d with
      | None, Some v => run s ds (upd r (dname d) v)
      | _, _ => None
      end
  end.

(** the symbolic constants *)
Definition syms (ds : list decl) : list string := flat_map (fun d => match d with DSym x _ => [x] | _ => [] end) ds.

(** ** The values that are covered *)
Inductive increasing : list Z -> Prop :=
| inc_nil : increasing []
| inc_cons x l : Forall (fun y => (x < y)%Z) l -> increasing l -> increasing (x :: l).

Section Shape.
Variable n : nat.
(** Lists of up to [n] elements; sets of up to [n] integers; matrices of up to [n]
    rows, all of them of [n] elements; tensors of up to [n] matrices, all of them of
    [n] rows of [n] elements. *)
Fixpoint shape (t : ty) (v : val) {struct t} : Prop :=
  match t with
  | TInt => exists z, v = VInt z
  | TBool => exists b, v = VBool b
  | TList e => exists l, v = VList l /\ List.length l <= n /\ Forall (shape e) l
  | TSet e => exists l, v = VList (map VInt l) /\ List.length l <= n /\ increasing l
  | TMatrix e => exists m, v = VList (map VList m) /\ List.length m <= n /\
                           Forall (fun r => List.length r = n /\ Forall (shape e) r) m
  | TTensor3D e => exists m, v = VList (map (fun x => VList (map VList x)) m) /\ List.length m <= n /\
                             Forall (fun x => List.length x = n /\ Forall (fun r => List.length r = n /\ Forall (shape e) r) x) m
  | TTuple ts => exists l, v = VList l /\
      (fix go (ts : list ty) (l : list val) : Prop :=
         match ts, l with
         | [], [] => True
         | t :: ts, v :: l => shape t v /\ go ts l
         | _, _ => False
         end) ts l
  | TFn _ => False
  end.
(** types of variables that can be given symbolic values: the elements of sets are
    integers *)
Fixpoint can_gen (t : ty) : bool :=
  match t with
  | TInt | TBool => true
  | TList e | TMatrix e | TTensor3D e => can_gen e
  | TSet e => match e with TInt => true | _ => false end
  | TTuple ts => forallb can_gen ts
  | TFn _ => false
  end.
End Shape.

(** ** Sorting *)
Lemma insert_inc x l : increasing l -> ~ In x l -> increasing (insert x l).
Proof.
  induction 1 as [|y l F I IH]; cbn; intros NI; [repeat constructor|].
  assert (x <> y) by (intros ->; auto). destruct (Z.ltb_spec y x).
  - constructor; [|auto]. clear IH NI. induction l as [|z l IHl]; cbn; [repeat constructor; lia|].
    inversion F; subst. destruct (z <? x)%Z; repeat constructor; auto. inversion I; auto.
  - constructor; [|constructor; auto]. constructor; [lia|]. eapply Forall_impl; [|exact F]. cbn. intros. lia.
Qed.
Lemma insert_in x y l : In y (insert x l) <-> y = x \/ In y l.
Proof. induction l as [|z l IH]; cbn; [intuition congruence|]. destruct (z <? x)%Z; cbn; rewrite ?IH; intuition congruence. Qed.
Lemma sort_in y l : In y (sort l) <-> In y l.
Proof. induction l as [|x l IH]; cbn; [tauto|]. rewrite insert_in, IH. intuition congruence. Qed.
Lemma sort_inc l : NoDup l -> increasing (sort l).
Proof. induction 1; cbn; [constructor|]. apply insert_inc; auto. now rewrite sort_in. Qed.
Lemma insert_len x l : List.length (insert x l) = S (List.length l).
Proof. induction l; cbn; auto. destruct (_ <? _)%Z; cbn; auto. Qed.
Lemma sort_len l : List.length (sort l) = List.length l.
Proof. unfold sort. induction l; cbn; auto. now rewrite insert_len, IHl. Qed.
Lemma remove_dup_in y l : In y (remove_dup l) -> In y l.
Proof. induction l as [|x l IH]; cbn; auto. intros [|H]; auto. apply filter_In in H as [? _]. auto. Qed.
Lemma remove_dup_nodup l : NoDup (remove_dup l).
Proof.
  induction l as [|x l IH]; cbn; constructor.
  - rewrite filter_In. intros [_ H]. rewrite Z.eqb_refl in H. discriminate.
  - now apply NoDup_filter.
Qed.
Lemma filter_len A (f : A -> bool) l : List.length (filter f l) <= List.length l.
Proof. induction l; cbn; auto. destruct (f a); cbn; lia. Qed.
Lemma remove_dup_len l : List.length (remove_dup l) <= List.length l.
Proof. induction l as [|x l IH]; cbn; auto. pose proof (filter_len _ (fun y => negb (y =? x)%Z) (remove_dup l)). lia. Qed.
Lemma inc_sorted l : increasing l -> sort (remove_dup l) = l.
Proof.
  intros I. assert (remove_dup l = l) as ->.
  { induction I as [|x l F I IH]; cbn; auto. rewrite IH. f_equal.
    clear IH I. induction F as [|y l L F IH]; cbn; auto. destruct (Z.eqb_spec y x); [lia|]. cbn. now rewrite IH. }
  unfold sort. induction I as [|x l F I IH]; cbn; auto. rewrite IH. destruct F as [|y l L F]; cbn; auto.
  destruct (Z.ltb_spec y x); [lia|reflexivity].
Qed.

(** ** Names *)
Local Open Scope string_scope.
(** [path x y]: [y] is [x] followed by any number of parts [_BOUNDEDSET-i],
    [_BOUNDEDSET-len] and [_TUPLE-i] *)
Inductive seg : Type := SB (i : nat) | SLen | ST (i : nat).
Definition seg_text (s : seg) : string :=
  match s with SB i => "_BOUNDEDSET-" ++ string_of_nat i | SLen => "_BOUNDEDSET-len" | ST i => "_TUPLE-" ++ string_of_nat i end.
Fixpoint enc (p : list seg) : string := match p with [] => "" | s :: r => seg_text s ++ enc r end.

Lemma app_assoc_s a b c : (a ++ b) ++ c = a ++ b ++ c.
Proof. induction a; cbn; congruence. Qed.
Lemma app_inv_head_s a b c : a ++ b = a ++ c -> b = c.
Proof. induction a; cbn; intros H; [auto|injection H; auto]. Qed.

Definition tok (s : seg) : string := match s with SB i | ST i => string_of_nat i | SLen => "len" end.
Lemma tok_lacks s : lacks "_" (tok s).
Proof. destruct s; try apply string_of_nat_lacks. cbn. repeat split; discriminate. Qed.
Lemma digits_no_len i : string_of_nat i <> "len".
Proof.
  unfold string_of_nat. intros E. assert (D : forall u, NilEmpty.string_of_uint u <> "len").
  { intros [| | | | | | | | | |]; cbn; discriminate. } exact (D _ E).
Qed.
(** tokens are followed by an underscore or nothing *)
Lemma lacks_split a b p q : lacks "_" a -> lacks "_" b ->
  (p = "" \/ exists p', p = String "_" p') -> (q = "" \/ exists q', q = String "_" q') -> a ++ p = b ++ q -> a = b /\ p = q.
Proof.
  revert b. induction a as [|c a IH]; intros [|d b] LA LB HP HQ E; cbn in *.
  - auto.
  - subst p. destruct HP as [HP|[p' HP]]; [discriminate|]. injection HP as -> _. tauto.
  - subst q. destruct HQ as [HQ|[p' HQ]]; [discriminate|]. injection HQ as -> _. tauto.
  - injection E as -> E. destruct (IH b) as [-> ->]; tauto.
Qed.
Lemma enc_start p : enc p = "" \/ exists p', enc p = String "_" p'.
Proof. destruct p as [|[]]; cbn; eauto. Qed.
Lemma enc_inj p : forall q, enc p = enc q -> p = q.
Proof.
  induction p as [|s p IH]; intros [|s' q] E; cbn [enc] in E; auto; try (destruct s; discriminate); try (destruct s'; discriminate).
  assert (K : tok s ++ enc p = tok s' ++ enc q /\ (s = s' \/ tok s <> tok s')).
  { destruct s, s'; cbn [seg_text tok] in *; rewrite ?app_assoc_s in E; cbn in E; try discriminate E.
    - split; [now injection E|]. destruct (Nat.eq_dec i i0) as [->|N]; auto. right. intros T. apply string_of_nat_inj in T. auto.
    - split; [now injection E|]. right. apply digits_no_len.
    - split; [now injection E|]. right. intros T. symmetry in T. revert T. apply digits_no_len.
    - split; [|auto]. injection E as E. cbn. now rewrite E.
    - split; [now injection E|]. destruct (Nat.eq_dec i i0) as [->|N]; auto. right. intros T. apply string_of_nat_inj in T. auto. }
  destruct K as [E' [->|N]].
  - apply app_inv_head_s in E'. f_equal. auto.
  - exfalso. apply N. exact (proj1 (lacks_split _ _ _ _ (tok_lacks s) (tok_lacks s') (enc_start p) (enc_start q) E')).
Qed.

Definition path (x y : string) : Prop := exists p, y = x ++ enc p.
Lemma path_refl x : path x x.
Proof. exists []. cbn. induction x; cbn; congruence. Qed.
Lemma path_seg x s y : path (x ++ seg_text s) y -> exists p, y = x ++ enc (s :: p).
Proof. intros [p ->]. exists p. now rewrite app_assoc_s. Qed.
(** nothing is below two names *)
Definition apart (x y : string) : Prop := forall z, path x z -> path y z -> False.
Lemma seg_apart x s s' : s <> s' -> apart (x ++ seg_text s) (x ++ seg_text s').
Proof.
  intros N z P Q. apply path_seg in P as [p ->], Q as [q E]. apply app_inv_head_s, enc_inj in E. congruence.
Qed.
Lemma seg_not_self x s : ~ path (x ++ seg_text s) x.
Proof.
  intros P. apply path_seg in P as [p E]. assert (x ++ "" = x ++ enc (s :: p)) by (rewrite <- E; clear; induction x; cbn; congruence).
  apply app_inv_head_s in H. destruct s; discriminate.
Qed.
(** variable names without a hyphen *)
Lemma lacks_dash_split a b p q : lacks "-" a -> lacks "-" b -> a ++ String "-" p = b ++ String "-" q -> a = b /\ p = q.
Proof.
  revert b. induction a as [|c a IH]; intros [|d b] LA LB E; cbn in *.
  - now injection E.
  - injection E as <- _. tauto.
  - injection E as -> _. tauto.
  - injection E as -> E. destruct (IH b) as [-> ->]; tauto.
Qed.
Lemma dash_apart x y : lacks "-" x -> lacks "-" y -> x <> y -> apart x y.
Proof.
  intros LX LY N z [p ->] [q E]. assert (APN : forall a, a ++ "" = a) by (clear; induction a; cbn; congruence).
  assert (W : forall s r, exists w t, enc (s :: r) = w ++ String "-" t /\ lacks "-" w /\ (w = "_BOUNDEDSET" \/ w = "_TUPLE")).
  { intros s r. destruct s; cbn [enc seg_text]; [exists "_BOUNDEDSET"|exists "_BOUNDEDSET"|exists "_TUPLE"]; eexists; (split; [reflexivity|split; [cbn; repeat split; discriminate|auto]]). }
  assert (ND : forall a w t, lacks "-" a -> a = w ++ String "-" t -> False).
  { intros a w t L ->. apply lacks_app in L. cbn in L. tauto. }
  destruct p as [|s p], q as [|s' q].
  - cbn in E. rewrite !APN in E. auto.
  - destruct (W s' q) as (w & t & E2 & _). rewrite E2 in E. cbn [enc] in E. rewrite APN, <- app_assoc_s in E. eapply (ND x); eauto.
  - destruct (W s p) as (w & t & E2 & _). rewrite E2 in E. cbn [enc] in E. rewrite APN, <- app_assoc_s in E. symmetry in E. eapply (ND y); eauto.
  - destruct (W s p) as (w & t & E1 & L1 & C1). destruct (W s' q) as (w' & t' & E2 & L2 & C2). rewrite E1, E2 in E. rewrite <- !app_assoc_s in E.
    apply lacks_dash_split in E; [|now apply lacks_app|now apply lacks_app]. destruct E as [E _].
    assert (SUF : forall a b (u v : string), String.length u = String.length v -> a ++ u = b ++ v -> a = b).
    { clear. induction a as [|c a IH]; intros [|d b] u v LE E; cbn in *; auto.
      - subst u. cbn in LE. clear - LE. exfalso. assert (forall p q, String.length (p ++ q) = String.length p + String.length q) by (induction p; cbn; congruence). rewrite H in LE. lia.
      - subst v. cbn in LE. exfalso. assert (forall p q, String.length (p ++ q) = String.length p + String.length q) by (induction p; cbn; congruence). rewrite H in LE. lia.
      - injection E as -> E. f_equal. eauto. }
    assert (LAST : forall a b c d, a ++ String c "" = b ++ String d "" -> a = b /\ c = d).
    { clear. induction a as [|e a IH]; intros [|f b] c d E; cbn in *.
      - injection E as ->. auto.
      - injection E as E1 E2. destruct b; discriminate.
      - injection E as E1 E2. destruct a; discriminate.
      - injection E as -> E. destruct (IH _ _ _ E) as [-> ->]. auto. }
    destruct C1 as [-> | ->], C2 as [-> | ->].
    + apply N. eapply SUF; eauto.
    + destruct (LAST (x ++ "_BOUNDEDSE") (y ++ "_TUPL") "T"%char "E"%char) as [_ A]; [rewrite !app_assoc_s; exact E|discriminate A].
    + destruct (LAST (x ++ "_TUPL") (y ++ "_BOUNDEDSE") "E"%char "T"%char) as [_ A]; [rewrite !app_assoc_s; exact E|discriminate A].
    + apply N. eapply SUF; eauto.
Qed.

(** ** What is generated for a variable *)
Local Open Scope list_scope.
Section Var.
Variable n : nat.
Hypothesis N2 : 2 <= n.
Notation gen_var := (gen_var n).

Fixpoint tkids (x : string) (i : nat) (ts : list ty) : list (ty * string) :=
  match ts with [] => [] | t :: r => (t, tuple_elem x i) :: tkids x (S i) r end.
Definition kids (t : ty) (x : string) : list (ty * string) :=
  match t with
  | TList e | TSet e => map (fun i => (e, bounded x i)) (seq 0 n)
  | TMatrix e => map (fun i => (e, bounded x i)) (seq 0 (n * n))
  | TTensor3D e => map (fun i => (e, bounded x i)) (seq 0 (n * n * n))
  | TTuple ts => tkids x 0 ts
  | _ => []
  end.
Definition pre (t : ty) (x : string) : list decl :=
  match t with TList _ | TSet _ | TMatrix _ | TTensor3D _ => [DSym (len_name x) true] | _ => [] end.
Definition term (t : ty) (x : string) : rterm :=
  let tmp := map snd (kids t x) in
  match t with
  | TList _ => RTake (RListOf (map RName tmp)) (len_name x)
  | TSet _ => RSorted (RTake (RListOf (map RName tmp)) (len_name x))
  | TMatrix _ => RTake (RListOf (map (fun i => RListOf (map RName (chunk tmp (i * n) n))) (seq 0 n))) (len_name x)
  | TTensor3D _ =>
      RTake (RListOf (map (fun i => RListOf (map (fun j => RListOf (map RName (chunk tmp (i * n * n + j * n) n))) (seq 0 n))) (seq 0 n))) (len_name x)
  | _ => RListOf (map RName tmp)
  end.
Definition leaf (t : ty) : bool := match t with TInt | TBool | TFn _ => true | _ => false end.

Lemma range_rows : range_step (n * n - 1) n = map (fun k => k * n) (seq 0 n).
Proof.
  unfold range_step. do 2 f_equal. replace (n * n - 1 + n - 1) with (n * n + (n - 2)) by nia.
  rewrite Nat.div_add_l by lia. rewrite Nat.div_small by lia. lia.
Qed.
Lemma tkids_names x ts : forall i, map snd (tkids x i ts) = map (tuple_elem x) (seq i (List.length ts)).
Proof. induction ts as [|t ts IH]; intros i; cbn; auto. now rewrite IH. Qed.

Lemma gen_var_eq t x : leaf t = false -> gen_var t x =
  (q <- gens (map (fun k => gen_var (fst k) (snd k)) (kids t x)) ;;
   Ok (pre t x ++ fst q ++ [DDef x (term t x)], map dname (pre t x) ++ snd q)).
Proof.
  intros L. destruct t; try discriminate L; cbn [kids pre term GenModel.gen_var].
  - rewrite !map_map. cbn [fst snd]. destruct (gens _) as [q|]; [|reflexivity]. cbn [bindR]. rewrite <- map_map with (g := RName). reflexivity.
  - rewrite !map_map. cbn [fst snd]. destruct (gens _) as [q|]; [|reflexivity]. cbn [bindR].
    rewrite (proj2 (Nat.eqb_neq n 0)) by lia. rewrite map_length, seq_length, range_rows, map_map. reflexivity.
  - rewrite !map_map. cbn [fst snd]. destruct (gens _) as [q|]; reflexivity.
  - rewrite !map_map. cbn [fst snd]. destruct (gens _) as [q|]; [|reflexivity]. cbn [bindR]. rewrite <- map_map with (g := RName). reflexivity.
  - assert (E : forall i, (fix go (i : nat) (ts : list ty) {struct ts} := match ts with [] => [] | t :: r => gen_var t (tuple_elem x i) :: go (S i) r end) i ts =
                map (fun k => gen_var (fst k) (snd k)) (tkids x i ts)).
    { induction ts as [|t ts IH]; intros i; cbn; auto. now rewrite IH. }
    rewrite E. destruct (gens _) as [q|]; [|reflexivity]. cbn [bindR]. rewrite tkids_names, map_map. reflexivity.
Qed.

(** the names of the parts of a variable *)
Lemma nodup_map A B (f : A -> B) l : (forall a b, f a = f b -> a = b) -> NoDup l -> NoDup (map f l).
Proof.
  intros I. induction 1; cbn; constructor; auto. rewrite in_map_iff. intros (y & E & IN). apply I in E. congruence.
Qed.
Lemma kids_segs t x : exists segs, map snd (kids t x) = map (fun s => (x ++ seg_text s)%string) segs /\ NoDup segs /\ ~ In SLen segs.
Proof.
  assert (B : forall k e, exists segs, map snd (map (fun i => (e : ty, bounded x i)) (seq 0 k)) = map (fun s => (x ++ seg_text s)%string) segs /\ NoDup segs /\ ~ In SLen segs).
  { intros k e. exists (map SB (seq 0 k)). rewrite !map_map. split; [reflexivity|]. split; [apply nodup_map; [congruence|apply seq_NoDup]|].
    rewrite in_map_iff. intros (? & ? & _). discriminate. }
  destruct t; cbn [kids]; auto; try (exists []; split; [reflexivity|split; [constructor|intros []]]).
  exists (map ST (seq 0 (List.length ts))). rewrite tkids_names, map_map. split; [reflexivity|]. split; [apply nodup_map; [congruence|apply seq_NoDup]|].
  rewrite in_map_iff. intros (? & ? & _). discriminate.
Qed.
Lemma kids_apart t x : ForallOrdPairs apart (map snd (kids t x)).
Proof.
  destruct (kids_segs t x) as (segs & -> & ND & _). induction ND as [|s l NI ND IH]; cbn; constructor; auto.
  apply Forall_forall. intros y Y. apply in_map_iff in Y as (s' & <- & IN). apply seg_apart. congruence.
Qed.
Lemma kids_below t x y z : In y (map snd (kids t x)) -> path y z -> path x z /\ z <> x /\ z <> len_name x.
Proof.
  destruct (kids_segs t x) as (segs & -> & _ & NL). intros IN P. apply in_map_iff in IN as (s & <- & IN).
  split; [|split].
  - apply path_seg in P as [p ->]. now exists (s :: p).
  - intros ->. now apply seg_not_self in P.
  - intros ->. apply path_seg in P as [p E]. unfold len_name in E. apply app_inv_head_s in E.
    change "_BOUNDEDSET-len"%string with (enc [SLen]) in E. apply enc_inj in E. injection E as E _. congruence.
Qed.
Lemma len_not_self x : len_name x <> x.
Proof. intros E. apply (seg_not_self x SLen). change (path (len_name x) x). rewrite E. apply path_refl. Qed.
Lemma len_path x : path x (len_name x).
Proof. now exists [SLen]. Qed.

(** several variables *)
Lemma gens_ok l q : gens l = Ok q -> exists qs, Forall2 (fun m q => m = Ok q) l qs /\ q = (concat (map fst qs), concat (map snd qs)).
Proof.
  revert q. induction l as [|m l IH]; intros q H; cbn in H; [injection H as <-; exists []; split; [constructor|reflexivity]|].
  destruct m as [a|] eqn:E; [|discriminate]. cbn in H. destruct (gens l) as [b|]; [|discriminate]. injection H as <-.
  destruct (IH b eq_refl) as (qs & F & ->). exists (a :: qs). split; [constructor; auto|reflexivity].
Qed.

Definition names (ds : list decl) : list string := map dname ds.
Definition gen_ok (k : ty * string) (q : list decl * list string) : Prop := gen_var (fst k) (snd k) = Ok q.

(** all names are below the variable's, and different *)
Lemma forest_names ks qs : Forall2 gen_ok ks qs ->
  Forall2 (fun k q => NoDup (names (fst q)) /\ forall y, In y (names (fst q)) -> path (snd k) y) ks qs ->
  ForallOrdPairs apart (map snd ks) ->
  NoDup (names (concat (map fst qs))) /\ forall y, In y (names (concat (map fst qs))) -> exists k, In k (map snd ks) /\ path k y.
Proof.
  unfold names. intros _ F. induction F as [|k q ks qs [ND P] F IH]; cbn; intros AP; [split; [constructor|intros y []]|].
  inversion AP as [|? ? A1 A2]; subst. destruct (IH A2) as [ND' P']. rewrite map_app. split.
  - assert (D : forall y, In y (map dname (fst q)) -> In y (map dname (concat (map fst qs))) -> False).
    { intros y Y1 Y2. destruct (P' y Y2) as (k' & K & PK). rewrite Forall_forall in A1. exact (A1 k' K y (P y Y1) PK). }
    clear - ND ND' D. induction ND as [|a l NI ND IH]; cbn; auto. constructor.
    + rewrite in_app_iff. intros [|]; [contradiction|]. eapply D; [now left|eauto].
    + apply IH. intros y A B. eapply D; [right; exact A|exact B].
  - intros y Y. apply in_app_or in Y as [Y|Y]; [exists (snd k); auto|]. destruct (P' y Y) as (k' & ? & ?). eauto.
Qed.

Definition var_names_ok (t : ty) : Prop := forall x q, gen_var t x = Ok q ->
  NoDup (names (fst q)) /\ (forall y, In y (names (fst q)) -> path x y) /\ In x (names (fst q)) /\ syms (fst q) = snd q.
Lemma kid_types (P : ty -> Prop) t x : 
  match t with TList e | TSet e | TMatrix e | TTensor3D e => P e | TTuple ts => Forall P ts | _ => True end ->
  Forall (fun k => P (fst k)) (kids t x).
Proof.
  assert (B : forall e l, P e -> Forall (fun k : ty * string => P (fst k)) (map (fun i => (e, bounded x i)) l)).
  { intros e l p. apply Forall_forall. intros k K. apply in_map_iff in K as (i & <- & _). exact p. }
  destruct t; cbn [kids]; intros H; auto. generalize 0. induction H; intros i; cbn; constructor; auto.
Qed.
Lemma syms_app a b : syms (a ++ b) = syms a ++ syms b.
Proof. apply flat_map_app. Qed.

Lemma node_names t x q : leaf t = false -> gen_var t x = Ok q -> Forall (fun k => var_names_ok (fst k)) (kids t x) ->
  NoDup (names (fst q)) /\ (forall y, In y (names (fst q)) -> path x y) /\ In x (names (fst q)) /\ syms (fst q) = snd q.
Proof.
  intros L G IH. rewrite gen_var_eq in G by auto. destruct (gens _) as [g|] eqn:E; [|discriminate]. cbn in G. injection G as <-.
  destruct (gens_ok _ _ E) as (qs & F & -> ).
  assert (F' : Forall2 gen_ok (kids t x) qs).
  { clear - F. revert F. generalize (kids t x). intros l. revert qs. induction l; intros qs F; inversion F; subst; constructor; auto. }
  assert (F2 : Forall2 (fun k q => NoDup (names (fst q)) /\ forall y, In y (names (fst q)) -> path (snd k) y) (kids t x) qs /\
               syms (concat (map fst qs)) = concat (map snd qs)).
  { clear - F' IH. induction F'; cbn; [split; [constructor|reflexivity]|]. inversion IH; subst. destruct (H2 _ _ H) as (? & ? & ? & SY).
    destruct (IHF' H3) as [? SYS]. split; [constructor; auto|]. now rewrite syms_app, SY, SYS. }
  destruct F2 as [F2 SY]. destruct (forest_names _ _ F' F2 (kids_apart t x)) as [ND P].
  unfold names in *. cbn [fst snd].
  assert (KB : forall y, In y (map dname (concat (map fst qs))) -> path x y /\ y <> x /\ y <> len_name x).
  { intros y Y. destruct (P y Y) as (k & K & PK). eapply kids_below; eauto. }
  assert (ND2 : NoDup (map dname (concat (map fst qs) ++ [DDef x (term t x)]))).
  { rewrite map_app. cbn. apply (NoDup_Add (a := x) (l := map dname (concat (map fst qs)))).
    - pose proof (Add_app x (map dname (concat (map fst qs))) []) as A. now rewrite app_nil_r in A.
    - split; auto. intros IN. now apply KB in IN. }
  assert (PR : pre t x = [] \/ pre t x = [DSym (len_name x) true]) by (destruct t; cbn; auto).
  split; [|split; [|split]].
  - destruct PR as [-> | ->]; cbn [app map dname]; auto. constructor; auto. rewrite map_app, in_app_iff. cbn. intros [IN|[IN|[]]].
    + now apply KB in IN.
    + symmetry in IN. now apply len_not_self in IN.
  - intros y Y. rewrite !map_app, !in_app_iff in Y. cbn in Y. destruct Y as [Y|[Y|[<-|[]]]].
    + destruct PR as [R|R]; rewrite R in Y; [destruct Y|]. destruct Y as [<-|[]]. apply len_path.
    + now apply KB.
    + apply path_refl.
  - rewrite !map_app, !in_app_iff. cbn. auto.
  - rewrite !syms_app, SY. cbn. rewrite app_nil_r. f_equal. destruct PR as [-> | ->]; reflexivity.
Qed.
Lemma gen_names t : var_names_ok t.
Proof.
  assert (LF : forall x b, NoDup (names [DSym x b]) /\ (forall y, In y (names [DSym x b]) -> path x y) /\ In x (names [DSym x b]) /\ syms [DSym x b] = [x]).
  { intros x b. split; [apply NoDup_cons; [intros []|apply NoDup_nil]|]. split; [intros y [<-|[]]; apply path_refl|]. split; [now left|reflexivity]. }
  induction t using ty_ind'; intros x q G.
  1, 2: cbn in G; injection G as <-; apply LF.
  all: try discriminate G.
  all: refine (node_names _ x q _ G _); [reflexivity|apply kid_types; assumption].
Qed.

(** ** Running the definitions *)
Lemma run_app s a b r : run s (a ++ b) r = match run s a r with Some r' => run s b r' | None => None end.
Proof.
  revert r. induction a as [|d a IH]; intros r; [reflexivity|]. cbn [app run]. destruct (r _); [reflexivity|].
  destruct (def_value s r d); [apply IH|reflexivity].
Qed.
Lemma run_keep s ds : forall r r' y v, run s ds r = Some r' -> r y = Some v -> r' y = Some v.
Proof.
  induction ds as [|d ds IH]; intros r r' y v R E; cbn [run] in R; [congruence|].
  destruct (r (dname d)) eqn:D; [discriminate|]. destruct (def_value s r d); [|discriminate].
  eapply IH; [exact R|]. unfold upd. destruct (String.eqb_spec (dname d) y) as [<-|]; [congruence|exact E].
Qed.
Lemma run_out s ds : forall r r' y, run s ds r = Some r' -> ~ In y (names ds) -> r' y = r y.
Proof.
  induction ds as [|d ds IH]; intros r r' y R NI; cbn [run] in R; [congruence|].
  destruct (r (dname d)) eqn:D; [discriminate|]. destruct (def_value s r d); [|discriminate].
  cbn in NI. rewrite (IH _ _ y R) by tauto. unfold upd. destruct (String.eqb_spec (dname d) y) as [<-|]; [|reflexivity].
  exfalso. apply NI. now left.
Qed.
Lemma mapO_names r ys : mapO (rkt_eval r) (map RName ys) = mapO r ys.
Proof. induction ys; cbn; auto. now rewrite IHys. Qed.
Lemma mapO_chunk A B (f : A -> option B) l vs i k : mapO f l = Some vs -> mapO f (chunk l i k) = Some (chunk vs i k).
Proof.
  unfold chunk. revert vs i k. induction l as [|a l IH]; intros vs i k H; cbn in H.
  - injection H as <-. now rewrite !skipn_nil, !firstn_nil.
  - destruct (f a) eqn:E; [|discriminate]. destruct (mapO f l) as [bs|] eqn:M; [|discriminate]. injection H as <-. destruct i; cbn [skipn].
    + destruct k; [reflexivity|]. cbn. rewrite E. specialize (IH bs 0 k eq_refl). cbn [skipn] in IH. now rewrite IH.
    + now apply IH.
Qed.
Lemma mapO_ok A B (f : A -> option B) g l : (forall a, In a l -> f a = Some (g a)) -> mapO f l = Some (map g l).
Proof. induction l as [|a l IH]; cbn; intros H; auto. rewrite H, IH; auto. Qed.
Lemma mapO_len A B (f : A -> option B) l vs : mapO f l = Some vs -> List.length vs = List.length l.
Proof. revert vs. induction l as [|a l IH]; cbn; intros vs H; [now injection H as <-|]. destruct (f a), (mapO f l); try discriminate. injection H as <-. cbn. auto. Qed.
Lemma chunk_len A (l : list A) i k : i + k <= List.length l -> List.length (chunk l i k) = k.
Proof. intros. unfold chunk. rewrite firstn_length, skipn_length. lia. Qed.
Lemma chunk_forall A (P : A -> Prop) l i k : Forall P l -> Forall P (chunk l i k).
Proof.
  intros F. unfold chunk. rewrite Forall_forall in *. intros x IN. apply F.
  rewrite <- (firstn_skipn i l). apply in_or_app. right. rewrite <- (firstn_skipn k (skipn i l)). apply in_or_app. now left.
Qed.

(** what the definition of a variable evaluates to *)
Definition value (t : ty) (vals : list val) (k : nat) : option val :=
  match t with
  | TList _ => Some (VList (firstn k vals))
  | TSet _ => option_map (fun l => VList (map VInt (sort (remove_dup l)))) (ints (firstn k vals))
  | TMatrix _ => Some (VList (firstn k (map (fun i => VList (chunk vals (i * n) n)) (seq 0 n))))
  | TTensor3D _ => Some (VList (firstn k (map (fun i => VList (map (fun j => VList (chunk vals (i * n * n + j * n) n)) (seq 0 n))) (seq 0 n))))
  | _ => Some (VList vals)
  end.
Definition has_len (t : ty) : bool := match t with TTuple _ => false | _ => true end.
Lemma kids_len t x : leaf t = false -> has_len t = true -> (n <= List.length (kids t x))%nat.
Proof. destruct t; try discriminate; intros _ _; cbn [kids]; rewrite map_length, seq_length; nia. Qed.
Lemma eval_term t x r vals : leaf t = false -> mapO r (map snd (kids t x)) = Some vals ->
  rkt_eval r (term t x) =
  if has_len t then match r (len_name x) with
                    | Some (VInt k) => if ((0 <=? k) && (k <=? Z.of_nat n))%Z then value t vals (Z.to_nat k) else None
                    | _ => None end
  else Some (VList vals).
Proof.
  intros L M. pose proof (mapO_len _ _ _ _ _ M) as LN. rewrite map_length in LN.
  assert (CH : forall i, mapO (rkt_eval r) (map RName (chunk (map snd (kids t x)) i n)) = Some (chunk vals i n)).
  { intros i. rewrite mapO_names. now apply mapO_chunk. }
  destruct t; try discriminate L; cbn [term has_len rkt_eval value].
  - rewrite mapO_names, M. cbn. cbn [kids] in LN. rewrite map_length, seq_length in LN. rewrite LN. destruct (r (len_name x)) as [[]|]; try reflexivity.
  - rewrite (mapO_ok _ _ _ (fun t0 => match rkt_eval r t0 with Some v => v | None => VInt 0 end)).
    2:{ intros a IN. apply in_map_iff in IN as (i & <- & IN). cbn [rkt_eval]. now rewrite CH. }
    rewrite map_map. cbn [option_map]. rewrite map_length, seq_length.
    rewrite (map_ext _ (fun i => VList (chunk vals (i * n) n))); [reflexivity|]. intros i. cbn [rkt_eval]. now rewrite CH.
  - assert (CH2 : forall i, rkt_eval r (RListOf (map (fun j => RListOf (map RName (chunk (map snd (kids (TTensor3D t) x)) (i * n * n + j * n) n))) (seq 0 n))) =
                   Some (VList (map (fun j => VList (chunk vals (i * n * n + j * n) n)) (seq 0 n)))).
    { intros i. cbn [rkt_eval]. rewrite (mapO_ok _ _ _ (fun t0 => match rkt_eval r t0 with Some v => v | None => VInt 0 end)).
      2:{ intros a IN. apply in_map_iff in IN as (j & <- & IN). cbn [rkt_eval]. now rewrite CH. }
      cbn [option_map]. rewrite map_map. do 2 f_equal. apply map_ext. intros j. cbn [rkt_eval]. now rewrite CH. }
    rewrite (mapO_ok _ _ _ (fun t0 => match rkt_eval r t0 with Some v => v | None => VInt 0 end)).
    2:{ intros a IN. apply in_map_iff in IN as (i & <- & IN). now rewrite CH2. }
    rewrite map_map. cbn [option_map]. rewrite map_length, seq_length.
    rewrite (map_ext _ (fun i => VList (map (fun j => VList (chunk vals (i * n * n + j * n) n)) (seq 0 n)))); [reflexivity|]. intros i. now rewrite CH2.
  - rewrite mapO_names, M. cbn. cbn [kids] in LN. rewrite map_length, seq_length in LN. rewrite LN. destruct (r (len_name x)) as [[]|]; try reflexivity.
    destruct ((0 <=? z) && (z <=? Z.of_nat n))%Z; reflexivity.
  - now rewrite mapO_names, M.
Qed.

Lemma firstn_forall A (P : A -> Prop) l k : Forall P l -> Forall P (firstn k l).
Proof. intros F. rewrite Forall_forall in *. intros x IN. apply F. rewrite <- (firstn_skipn k l). apply in_or_app. now left. Qed.
Lemma same_kids e x l vals : Forall2 (fun (k : ty * string) v => shape n (fst k) v) (map (fun i => (e, bounded x i)) l) vals ->
  Forall (shape n e) vals /\ List.length vals = List.length l.
Proof.
  revert vals. induction l as [|i l IH]; intros vals F; inversion F; subst; [split; [constructor|reflexivity]|].
  destruct (IH _ H3). split; [constructor; auto|cbn; auto].
Qed.
Lemma ints_spec l zs : ints l = Some zs -> l = map VInt zs.
Proof.
  revert zs. induction l as [|v l IH]; cbn; intros zs H; [now injection H as <-|]. destruct v; try discriminate.
  destruct (ints l); [|discriminate]. injection H as <-. cbn. f_equal. auto.
Qed.
Lemma ints_map l : ints (map VInt l) = Some l.
Proof. induction l; cbn; auto. now rewrite IHl. Qed.

Lemma value_shape t x vals k v : leaf t = false -> can_gen t = true ->
  Forall2 (fun k v => shape n (fst k) v) (kids t x) vals -> k <= n -> value t vals k = Some v -> shape n t v.
Proof.
  intros L C F K V. destruct t; try discriminate L; cbn [kids] in F; cbn [value] in V.
  - injection V as <-. apply same_kids in F as [F LN]. cbn. eexists. split; [reflexivity|]. split; [rewrite firstn_length; lia|now apply firstn_forall].
  - injection V as <-. apply same_kids in F as [F LN]. rewrite seq_length in LN. cbn. exists (firstn k (map (fun i => chunk vals (i * n) n) (seq 0 n))). split.
    + now rewrite <- firstn_map, map_map.
    + split; [rewrite firstn_length; lia|]. apply firstn_forall. apply Forall_forall. intros r IN. apply in_map_iff in IN as (i & <- & IN). apply in_seq in IN.
      split; [apply chunk_len; nia|now apply chunk_forall].
  - injection V as <-. apply same_kids in F as [F LN]. rewrite seq_length in LN. cbn.
    exists (firstn k (map (fun i => map (fun j => chunk vals (i * n * n + j * n) n) (seq 0 n)) (seq 0 n))). split.
    + rewrite <- firstn_map, map_map. do 2 f_equal. apply map_ext. intros i. now rewrite map_map.
    + split; [rewrite firstn_length; lia|]. apply firstn_forall. apply Forall_forall. intros r IN. apply in_map_iff in IN as (i & <- & IN). apply in_seq in IN.
      split; [now rewrite map_length, seq_length|]. apply Forall_forall. intros c IN2. apply in_map_iff in IN2 as (j & <- & IN2). apply in_seq in IN2.
      split; [|now apply chunk_forall]. apply chunk_len. rewrite LN.
      assert (i * n * n + j * n + n = (i * n + j + 1) * n) by lia. assert (i * n + j + 1 <= n * n) by nia. nia.
  - destruct (ints (firstn k vals)) as [zs|] eqn:E; [|discriminate]. injection V as <-. cbn. eexists. split; [reflexivity|].
    split; [|apply sort_inc, remove_dup_nodup]. rewrite sort_len. pose proof (remove_dup_len zs). apply ints_spec in E. apply (f_equal (@List.length _)) in E.
    rewrite map_length, firstn_length in E. lia.
  - injection V as <-. cbn. exists vals. split; auto. clear C. revert F. generalize 0. revert vals. induction ts as [|t ts IH]; cbn; intros vals i F; inversion F; subst; auto.
    split; auto. eapply IH; eauto.
Qed.

(** every covered value is the value of the definition for some values of the parts *)
Lemma chunk_concat A (R : list (list A)) i : Forall (fun r => List.length r = n) R -> i < List.length R -> chunk (concat R) (i * n) n = nth i R [].
Proof.
  unfold chunk. revert i. induction R as [|r R IH]; cbn; intros i F L; [lia|]. inversion F as [|? ? H1 H2 E1]; clear E1. destruct i.
  - cbn [Nat.mul skipn]. rewrite firstn_app, H1, Nat.sub_diag. cbn. rewrite app_nil_r. rewrite <- H1. apply firstn_all.
  - cbn [Nat.mul]. rewrite skipn_app, skipn_all2 by lia. cbn [app]. rewrite H1. replace (n + i * n - n) with (i * n) by lia. apply IH; auto. lia.
Qed.
Lemma map_nth_seq A (l : list A) d i k : i + k <= List.length l -> map (fun j => nth (i + j) l d) (seq 0 k) = chunk l i k.
Proof.
  unfold chunk. intros L. apply (nth_ext _ _ d d).
  - rewrite map_length, seq_length, firstn_length, skipn_length. lia.
  - rewrite map_length, seq_length. intros j J. rewrite (nth_indep _ d (nth (i + 0) l d)) by (rewrite map_length, seq_length; lia).
    rewrite (map_nth (fun j => nth (i + j) l d)), seq_nth by lia. cbn.
    assert (E : forall (p : list A) j k, j < k -> nth j (firstn k p) d = nth j p d).
    { clear. induction p; intros [|j] [|k] L; cbn; auto; try lia. apply IHp. lia. }
    rewrite E by lia. clear. revert l. induction i; intros l; [reflexivity|]. destruct l; cbn; [destruct j; reflexivity|apply IHi].
Qed.
Lemma map_nth_all A (l : list A) d : map (fun j => nth j l d) (seq 0 (List.length l)) = l.
Proof. pose proof (map_nth_seq _ l d 0 (List.length l) ltac:(lia)) as H. cbn [Nat.add] in H. rewrite H. unfold chunk. apply firstn_all. Qed.
Lemma concat_len A (R : list (list A)) : Forall (fun r => List.length r = n) R -> List.length (concat R) = List.length R * n.
Proof. induction 1; cbn; auto. rewrite app_length. lia. Qed.

Lemma pad_to A (P : A -> Prop) l d k : Forall P l -> P d -> List.length l <= k ->
  exists l', Forall P l' /\ List.length l' = k /\ firstn (List.length l) l' = l.
Proof.
  intros F D L. exists (l ++ repeat d (k - List.length l)). split; [|split].
  - apply Forall_app. split; auto. apply Forall_forall. intros x X. now apply repeat_spec in X as ->.
  - rewrite app_length, repeat_length. lia.
  - rewrite firstn_app, Nat.sub_diag. cbn. rewrite app_nil_r. apply firstn_all.
Qed.
Lemma kids_same e x l vals : Forall (shape n e) vals -> List.length vals = List.length l ->
  Forall2 (fun (k : ty * string) v => shape n (fst k) v) (map (fun i => (e, bounded x i)) l) vals.
Proof.
  revert vals. induction l as [|i l IH]; intros vals F LN; destruct vals; try discriminate LN; cbn; constructor; inversion F; subst; auto.
Qed.
(** every type has a value *)
Lemma shape_some t : can_gen t = true -> exists v, shape n t v.
Proof.
  induction t using ty_ind'; cbn [can_gen]; intros C; cbn [shape]; try discriminate.
  - exists (VInt 0). eauto.
  - exists (VBool true). eauto.
  - exists (VList []), []. split; [reflexivity|]. split; [cbn; lia|constructor].
  - exists (VList []), []. split; [reflexivity|]. split; [cbn; lia|constructor].
  - exists (VList []), []. split; [reflexivity|]. split; [cbn; lia|constructor].
  - exists (VList []), []. split; [reflexivity|]. split; [cbn; lia|constructor].
  - assert (G : exists l, (fix go (ts : list ty) (l : list val) : Prop :=
         match ts, l with [], [] => True | t :: ts, v :: l => shape n t v /\ go ts l | _, _ => False end) ts l).
    { induction H as [|t ts P F IH]; [now exists []|]. cbn in C. apply andb_true_iff in C as [C1 C2]. destruct (P C1) as [v V]. destruct (IH C2) as [l G]. exists (v :: l). auto. }
    destruct G as [l G]. exists (VList l), l. auto.
Qed.
Lemma shape_value t x v : leaf t = false -> can_gen t = true -> shape n t v ->
  exists vals k, k <= n /\ Forall2 (fun k v => shape n (fst k) v) (kids t x) vals /\ value t vals k = Some v.
Proof.
  intros L C S. destruct t; try discriminate L; cbn [shape] in S; cbn [kids value].
  - destruct S as (l & -> & LN & F). destruct (shape_some t C) as [d D]. destruct (pad_to _ _ l d n F D LN) as (l' & F' & LN' & E).
    exists l', (List.length l). split; auto. split; [apply kids_same; auto; now rewrite seq_length|]. now rewrite E.
  - destruct S as (m & -> & LN & F). destruct (shape_some t C) as [d D].
    destruct (pad_to _ (fun r => List.length r = n /\ Forall (shape n t) r) m (repeat d n) n F) as (R & F' & LN' & E); auto.
    { split; [apply repeat_length|]. apply Forall_forall. intros y Y. now apply repeat_spec in Y as ->. }
    assert (FL : Forall (fun r => List.length r = n) R) by (eapply Forall_impl; [|exact F']; cbn; tauto).
    exists (concat R), (List.length m). split; auto. split.
    + apply kids_same; [|rewrite seq_length, concat_len by auto; now rewrite LN']. clear - F'. induction F' as [|r R [_ P] F IH]; cbn; [constructor|]. apply Forall_app. auto.
    + do 2 f_equal. rewrite <- E at 2. rewrite <- firstn_map. f_equal. transitivity (map VList (map (fun i => nth i R []) (seq 0 n))); [rewrite map_map; apply map_ext_in; intros i I; apply in_seq in I; f_equal; apply chunk_concat; [auto|lia]|].
      now rewrite <- LN', map_nth_all.
  - destruct S as (m & -> & LN & F). destruct (shape_some t C) as [d D].
    destruct (pad_to _ (fun q => List.length q = n /\ Forall (fun r => List.length r = n /\ Forall (shape n t) r) q) m (repeat (repeat d n) n) n F) as (T & F' & LN' & E); auto.
    { split; [apply repeat_length|]. apply Forall_forall. intros y Y. apply repeat_spec in Y as ->. split; [apply repeat_length|]. apply Forall_forall. intros y Y. now apply repeat_spec in Y as ->. }
    assert (FL : Forall (fun r => List.length r = n) T) by (eapply Forall_impl; [|exact F']; cbn; tauto).
    assert (FR : Forall (fun r => List.length r = n /\ Forall (shape n t) r) (concat T)).
    { clear - F'. induction F' as [|r R [_ P] F IH]; cbn; [constructor|]. apply Forall_app. auto. }
    assert (FL2 : Forall (fun r => List.length r = n) (concat T)) by (eapply Forall_impl; [|exact FR]; cbn; tauto).
    assert (LC : List.length (concat T) = n * n) by (rewrite concat_len by auto; now rewrite LN').
    exists (concat (concat T)), (List.length m). split; auto. split.
    + apply kids_same; [|rewrite seq_length, concat_len by auto; now rewrite LC]. clear - FR. induction FR as [|r R [_ P] F IH]; cbn; [constructor|]. apply Forall_app. auto.
    + do 2 f_equal. rewrite <- E at 2. rewrite <- firstn_map. f_equal.
      transitivity (map (fun q => VList (map VList q)) (map (fun i => nth i T []) (seq 0 n))); [|now rewrite <- LN', map_nth_all].
      rewrite map_map. apply map_ext_in. intros i I. apply in_seq in I. f_equal.
      transitivity (map VList (map (fun j => nth (i * n + j) (concat T) []) (seq 0 n))).
      * rewrite map_map. apply map_ext_in. intros j J. apply in_seq in J. f_equal. replace (i * n * n + j * n) with ((i * n + j) * n) by lia. apply chunk_concat; auto. nia.
      * f_equal. rewrite map_nth_seq by nia. apply chunk_concat; auto. lia.
  - destruct S as (l & -> & LN & I). destruct t; try discriminate C.
    destruct (pad_to _ (shape n TInt) (map VInt l) (VInt 0) n) as (l' & F' & LN' & E); [apply Forall_forall; intros y Y; apply in_map_iff in Y as (z & <- & _); cbn; eauto|cbn; eauto|now rewrite map_length|].
    exists l', (List.length l). split; auto. split; [apply kids_same; auto; now rewrite seq_length|].
    rewrite map_length in E. rewrite E, ints_map. cbn. now rewrite inc_sorted.
  - destruct S as (l & -> & S). exists l, 0. split; [lia|]. split; [|reflexivity]. generalize 0. revert l S. clear. induction ts as [|t ts IH]; intros [|v l] S i; cbn in *; try contradiction; [constructor|].
    constructor; [tauto|]. apply IH. tauto.
Qed.

(** ** Only covered values are obtained *)
Definition sound_at (t : ty) : Prop := forall x q s r r',
  can_gen t = true -> gen_var t x = Ok q -> run s (fst q) r = Some r' -> exists v, r' x = Some v /\ shape n t v.
Lemma forest_sound ks qs s : Forall2 gen_ok ks qs -> Forall (fun k => sound_at (fst k)) ks -> Forall (fun k => can_gen (fst k) = true) ks ->
  forall r r', run s (concat (map fst qs)) r = Some r' ->
  exists vals, mapO r' (map snd ks) = Some vals /\ Forall2 (fun k v => shape n (fst k) v) ks vals.
Proof.
  intros F. induction F as [|k q ks qs G F IH]; intros SO CG r r' R; [exists []; split; [reflexivity|constructor]|].
  inversion SO; inversion CG; subst. cbn [map concat] in R. rewrite run_app in R. destruct (run s (fst q) r) as [r1|] eqn:R1; [|discriminate].
  destruct (H1 _ _ _ _ _ H5 G R1) as (v & V & SH). destruct (IH H2 H6 _ _ R) as (vals & M & F2).
  exists (v :: vals). cbn. rewrite (run_keep _ _ _ _ _ _ R V), M. split; [reflexivity|constructor; auto].
Qed.
Lemma can_kids t x : can_gen t = true -> Forall (fun k => can_gen (fst k) = true) (kids t x).
Proof.
  intros C. apply (kid_types (fun t => can_gen t = true)). destruct t; cbn in C; auto; [destruct t; try discriminate; reflexivity|].
  now rewrite Forall_forall, <- forallb_forall.
Qed.
Lemma gen_ok_kids t x qs : Forall2 (fun m q => m = Ok q) (map (fun k => gen_var (fst k) (snd k)) (kids t x)) qs -> Forall2 gen_ok (kids t x) qs.
Proof. generalize (kids t x). intros l. revert qs. induction l; intros qs F; inversion F; subst; constructor; auto. Qed.
Lemma upd_same (r : env) x v : upd r x v x = Some v.
Proof. unfold upd. now rewrite String.eqb_refl. Qed.
Lemma upd_other (r : env) x v y : x <> y -> upd r x v y = r y.
Proof. intros N. unfold upd. destruct (String.eqb_spec x y); [contradiction|reflexivity]. Qed.

Lemma node_sound t : leaf t = false -> (forall x, Forall (fun k => sound_at (fst k)) (kids t x)) -> sound_at t.
Proof.
  intros L SO x q s r r' C G R. rewrite gen_var_eq in G by auto. destruct (gens _) as [g|] eqn:E; [|discriminate]. cbn in G. injection G as <-.
  destruct (gens_ok _ _ E) as (qs & F & -> ). apply gen_ok_kids in F. cbn [fst] in R.
  rewrite run_app in R. destruct (run s (pre t x) r) as [r1|]; [|discriminate]. rewrite run_app in R.
  destruct (run s (concat (map fst qs)) r1) as [r2|] eqn:R2; [|discriminate].
  destruct (forest_sound _ _ _ F (SO x) (can_kids _ _ C) _ _ R2) as (vals & M & F2).
  cbn [run dname def_value] in R. destruct (r2 x); [discriminate|]. destruct (rkt_eval r2 (term t x)) as [v|] eqn:V; [|discriminate]. injection R as <-.
  exists v. split; [apply upd_same|]. rewrite (eval_term t x r2 vals L M) in V. destruct (has_len t) eqn:HL.
  - destruct (r2 (len_name x)) as [[]|]; try discriminate. destruct ((0 <=? z) && (z <=? Z.of_nat n))%Z eqn:B; [|discriminate].
    apply andb_true_iff in B as [B1 B2]. apply Z.leb_le in B1, B2. exact (value_shape t x vals (Z.to_nat z) v L C F2 ltac:(lia) V).
  - destruct t; try discriminate. exact (value_shape _ x vals 0 v L C F2 ltac:(lia) V).
Qed.
Lemma gen_sound t : sound_at t.
Proof.
  induction t using ty_ind'.
  1, 2: intros x q s r r' _ G R; cbn in G; injection G as <-; cbn in R; destruct (r x); [discriminate|]; injection R as <-; eexists; split; [apply upd_same|cbn; eauto].
  all: try (intros x q s r r' C; discriminate C).
  all: apply node_sound; [reflexivity|]; intros x; apply kid_types; assumption.
Qed.

(** ** Every covered value is obtained *)
Definition fresh (ds : list decl) (r : env) : Prop := forall y, In y (names ds) -> r y = None.
(** for some values of the constants, the variables [ys] get the values [vs] *)
Definition covers (ds : list decl) (ys : list string) (vs : list val) : Prop :=
  exists s, forall r, fresh ds r -> exists r', run s ds r = Some r' /\ mapO r' ys = Some vs.
Lemma run_agree s s' ds : (forall y, In y (names ds) -> fst s y = fst s' y /\ snd s y = snd s' y) -> forall r, run s ds r = run s' ds r.
Proof.
  induction ds as [|d ds IH]; intros A r; [reflexivity|]. cbn [run].
  assert (D : def_value s r d = def_value s' r d). { destruct d as [x [|]|]; cbn; try reflexivity; destruct (A x) as [B C]; [now left|now rewrite B|now left|now rewrite C]. }
  rewrite D. destruct (r _); [reflexivity|]. destruct (def_value s' r d); [|reflexivity]. apply IH. intros y Y. apply A. now right.
Qed.
Definition sel (l : list string) (a b : consts) : consts :=
  (fun y => if existsb (String.eqb y) l then fst a y else fst b y, fun y => if existsb (String.eqb y) l then snd a y else snd b y).
Lemma sel_in l a b y : In y l -> fst (sel l a b) y = fst a y /\ snd (sel l a b) y = snd a y.
Proof. intros I. assert (E : existsb (String.eqb y) l = true) by (apply existsb_exists; exists y; split; [auto|apply String.eqb_refl]). cbn. now rewrite E. Qed.
Lemma sel_out l a b y : ~ In y l -> fst (sel l a b) y = fst b y /\ snd (sel l a b) y = snd b y.
Proof.
  intros I. assert (E : existsb (String.eqb y) l = false).
  { destruct (existsb _ l) eqn:E; auto. apply existsb_exists in E as (z & Z & E). apply String.eqb_eq in E. now subst. }
  cbn. now rewrite E.
Qed.
Lemma mapO_keep s ds r r' ys vs : run s ds r = Some r' -> mapO r ys = Some vs -> mapO r' ys = Some vs.
Proof.
  intros R. revert vs. induction ys as [|y ys IH]; cbn; intros vs M; auto. destruct (r y) as [v|] eqn:E; [|discriminate]. destruct (mapO r ys) as [l|]; [|discriminate].
  rewrite (run_keep _ _ _ _ _ _ R E), (IH _ eq_refl). exact M.
Qed.
Lemma covers_app a b ya yb va vb : (forall y, In y (names a) -> In y (names b) -> False) ->
  covers a ya va -> covers b yb vb -> covers (a ++ b) (ya ++ yb) (va ++ vb).
Proof.
  intros D [s1 C1] [s2 C2]. exists (sel (names a) s1 s2). intros r FR. unfold fresh, names in FR. rewrite map_app in FR.
  destruct (C1 r) as (r1 & R1 & M1). { intros y Y. apply FR. apply in_or_app. now left. }
  assert (FR1 : fresh b r1). { intros y Y. rewrite (run_out _ _ _ _ y R1) by (intros X; eapply D; eauto). apply FR. apply in_or_app. now right. }
  destruct (C2 r1 FR1) as (r2 & R2 & M2). exists r2. rewrite run_app.
  rewrite (run_agree _ s1 a) by (intros y Y; now apply sel_in). rewrite R1.
  rewrite (run_agree _ s2 b) by (intros y Y; apply sel_out; intros X; eapply D; eauto). split; auto.
  pose proof (mapO_keep _ _ _ _ _ _ R2 M1) as M1'. clear - M1' M2. revert va M1'. induction ya as [|y ya IH]; cbn; intros va M; [now injection M as <-|].
  destruct (r2 y); [|discriminate]. destruct (mapO r2 ya); [|discriminate]. injection M as <-. now rewrite (IH _ eq_refl).
Qed.
Definition covers_at (t : ty) : Prop := forall x q v,
  can_gen t = true -> gen_var t x = Ok q -> shape n t v -> covers (fst q) [x] [v].
Lemma forest_covers ks qs : Forall2 gen_ok ks qs -> Forall (fun k => covers_at (fst k)) ks -> Forall (fun k => can_gen (fst k) = true) ks ->
  ForallOrdPairs apart (map snd ks) -> forall vals, Forall2 (fun k v => shape n (fst k) v) ks vals ->
  covers (concat (map fst qs)) (map snd ks) vals.
Proof.
  intros F. induction F as [|k q ks qs G F IH]; intros CO CG AP vals SH; inversion SH; subst.
  - exists (fun _ => 0%Z, fun _ => true). intros r _. exists r. split; reflexivity.
  - inversion CO as [|? ? CO1 CO2]; inversion CG as [|? ? CG1 CG2]; inversion AP as [|? ? A1 A2]; subst. cbn [map concat].
    apply (covers_app (fst q) (concat (map fst qs)) [snd k] (map snd ks) [y] l').
    + intros z Z1 Z2. destruct (gen_names _ _ _ G) as (_ & P1 & _).
      destruct (forest_names ks qs F) as [_ P2]; auto.
      { clear - F N2. induction F; constructor; auto. destruct (gen_names _ _ _ H) as (? & ? & _). auto. }
      destruct (P2 z Z2) as (k' & K & P). rewrite Forall_forall in A1. exact (A1 k' K z (P1 z Z1) P).
    + apply (CO1 (snd k) q y); auto.
    + apply IH; auto.
Qed.
Lemma node_covers t : leaf t = false -> (forall x, Forall (fun k => covers_at (fst k)) (kids t x)) -> covers_at t.
Proof.
  intros L CO x q v C G SH. destruct (shape_value t x v L C SH) as (vals & k & K & F2 & V).
  pose proof (gen_names _ _ _ G) as (ND & _ & _ & _).
  rewrite gen_var_eq in G by auto. destruct (gens _) as [g|] eqn:E; [|discriminate]. cbn in G. injection G as <-.
  destruct (gens_ok _ _ E) as (qs & F & -> ). apply gen_ok_kids in F. cbn [fst] in *.
  destruct (forest_covers _ _ F (CO x) (can_kids _ _ C) (kids_apart t x) vals F2) as [s0 RUN].
  destruct (forest_names (kids t x) qs F) as [_ P].
  { clear - F N2. induction F; constructor; auto. destruct (gen_names _ _ _ H) as (? & ? & _). auto. }
  { apply kids_apart. }
  assert (KB : forall y, In y (names (concat (map fst qs))) -> y <> x /\ y <> len_name x).
  { intros y Y. destruct (P y Y) as (z & Z & PZ). destruct (kids_below _ _ _ _ Z PZ) as (_ & ? & ?). auto. }
  set (s := sel [len_name x] (fun _ => Z.of_nat k, fun _ => true) s0).
  exists s. intros r FR. unfold fresh, names in FR. rewrite !map_app in FR.
  assert (PRE : exists r1, run s (pre t x) r = Some r1 /\ (has_len t = true -> r1 (len_name x) = Some (VInt (Z.of_nat k))) /\ forall y, y <> len_name x -> r1 y = r y).
  { assert (HP : pre t x = if has_len t then [DSym (len_name x) true] else []) by (destruct t; try discriminate L; reflexivity).
    rewrite HP in *. destruct (has_len t); [|exists r; repeat split; auto; discriminate]. cbn [run dname def_value].
    rewrite FR by (cbn; auto). eexists. split; [reflexivity|]. split.
    - intros _. rewrite upd_same. do 2 f_equal. destruct (sel_in [len_name x] (fun _ => Z.of_nat k, fun _ => true) s0 (len_name x)) as [Q _]; [now left|exact Q].
    - intros y Y. apply upd_other. congruence. }
  destruct PRE as (r1 & R1 & RL & RO). rewrite run_app, R1, run_app.
  rewrite (run_agree s s0 (concat (map fst qs))) by (intros y Y; apply sel_out; intros [X|[]]; subst y; now apply KB in Y).
  destruct (RUN r1) as (r2 & R2 & M2). { intros y Y. rewrite RO by now apply KB. apply FR. rewrite !in_app_iff. auto. }
  rewrite R2. cbn [run dname def_value].
  assert (X2 : r2 x = None). { rewrite (run_out _ _ _ _ x R2) by (intros Y; now apply KB in Y). rewrite RO by (intros Q; now apply (len_not_self x)). apply FR. rewrite !in_app_iff. cbn. auto. }
  rewrite X2, (eval_term t x r2 vals L M2).
  assert (VAL : (if has_len t then match r2 (len_name x) with
                    | Some (VInt k) => if ((0 <=? k) && (k <=? Z.of_nat n))%Z then value t vals (Z.to_nat k) else None
                    | _ => None end else Some (VList vals)) = Some v).
  { destruct (has_len t) eqn:HL.
    - rewrite (run_keep _ _ _ _ _ _ R2 (RL eq_refl)). rewrite (proj2 (Z.leb_le 0 (Z.of_nat k))), (proj2 (Z.leb_le (Z.of_nat k) (Z.of_nat n))) by lia. cbn [andb]. now rewrite Nat2Z.id.
    - destruct t; try discriminate. exact V. }
  rewrite VAL. eexists. split; [reflexivity|]. cbn [mapO]. now rewrite upd_same.
Qed.
Lemma gen_covers t : covers_at t.
Proof.
  induction t using ty_ind'.
  1: { intros x q v _ G [z ->]; cbn in G; injection G as <-. exists (fun _ => z, fun _ => true). intros r FR. cbn. rewrite FR by (now left). eexists. split; [reflexivity|]. now rewrite upd_same. }
  1: { intros x q v _ G [z ->]; cbn in G; injection G as <-. exists (fun _ => 0%Z, fun _ => z). intros r FR. cbn. rewrite FR by (now left). eexists. split; [reflexivity|]. now rewrite upd_same. }
  all: try (intros x q s C; discriminate C).
  all: apply node_covers; [reflexivity|]; intros x; apply kid_types; assumption.
Qed.
(** the generation succeeds *)
Lemma gens_some l : Forall (fun m => exists q, m = Ok q) l -> exists q, gens l = Ok q.
Proof. induction 1 as [|m l [a ->] F [b E]]; cbn; [eauto|]. rewrite E. cbn. eauto. Qed.
Lemma gen_total t x : can_gen t = true -> exists q, gen_var t x = Ok q.
Proof.
  revert x. induction t using ty_ind'; intros x C; try discriminate C; try (cbn; eauto; fail).
  all: rewrite gen_var_eq by reflexivity.
  all: match goal with |- exists q, bindR ?m _ = _ => enough (GG : exists q, m = Ok q) by (destruct GG as [g ->]; cbn; eauto) end.
  all: apply gens_some; apply Forall_forall; intros m M; apply in_map_iff in M as (k & <- & M).
  all: pose proof (can_kids _ x C) as CK; rewrite Forall_forall in CK; specialize (CK k M).
  all: match goal with |- exists q, GenModel.gen_var n (fst ?k) _ = _ =>
    match type of M with In _ (kids ?t ?x) => pose proof (kid_types (fun e => forall y, can_gen e = true -> exists q, gen_var e y = Ok q) t x) as KT end end.
  all: cbn beta iota in KT; match type of KT with ?A -> _ => assert (KH : A) by assumption; specialize (KT KH) end.
  all: rewrite Forall_forall in KT; apply (KT k M); auto.
Qed.
End Var.
