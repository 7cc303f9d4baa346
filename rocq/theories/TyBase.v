(** Lemmas about typed data: induction, computations without effects, structs and maps. *)
From Coq Require Import NArith ZArith Reals Bool String List Lia.
From Flocq Require Import Core IEEE754.BinarySingleNaN.
From Verif Require Import Res Str NumberModel FloatProofs NumberProofs PrimModel Ast EqSpec EvalIp SerModel SerProofs SerText DeModel TyModel TySpec.
From Verif Require MapModel ConvSpec FmtReadSpec FmtValueProofs.
Import ListNotations.
Open Scope list_scope.

(** ** Induction over types *)
Definition shape_all (P : ty -> Prop) (s : shape ty) : Prop :=
  match s with
  | ShUnit => True
  | ShNew t => P t
  | ShTuple l => Forall P l
  | ShStruct l => Forall (fun f => P (snd f)) l
  end.
Section Ind.
  Context (P : ty -> Prop).
  Context (Hb : P TBool) (Hi : forall w, P (TInt w)) (Hf : P TF64) (Hc : P TChar) (Hs : P TStr) (Hu : P TUnit) (Hus : P TUnitStruct)
    (Ho : forall t, P t -> P (TOption t)) (Hq : forall t, P t -> P (TSeq t)) (Ht : forall l, Forall P l -> P (TTuple l))
    (Hm : forall k t, P k -> P t -> P (TMap k t)) (Hn : forall n t, P t -> P (TNew n t))
    (Hst : forall n l, Forall (fun f => P (snd f)) l -> P (TStruct n l))
    (He : forall l, Forall (fun v => shape_all P (snd v)) l -> P (TEnum l))
    (Hbl : forall b t, P t -> P (TBlock b t)) (Hv : P TValue).
  Fixpoint ty_all (t : ty) : P t :=
    let fix go (l : list ty) : Forall P l :=
      match l with [] => Forall_nil _ | x :: l => Forall_cons _ (ty_all x) (go l) end in
    let fix gos (l : list (str * ty)) : Forall (fun f => P (snd f)) l :=
      match l with [] => Forall_nil _ | (k, x) :: l => Forall_cons (k, x) (ty_all x) (gos l) end in
    match t with
    | TBool => Hb | TInt w => Hi w | TF64 => Hf | TChar => Hc | TStr => Hs | TUnit => Hu | TUnitStruct => Hus
    | TOption t => Ho t (ty_all t) | TSeq t => Hq t (ty_all t) | TTuple l => Ht l (go l)
    | TMap k t => Hm k t (ty_all k) (ty_all t) | TNew n t => Hn n t (ty_all t)
    | TStruct n l => Hst n l (gos l)
    | TEnum l => He l ((fix gov (l : list (str * shape ty)) : Forall (fun v => shape_all P (snd v)) l :=
        match l with
        | [] => Forall_nil _
        | (k, s) :: l => Forall_cons (k, s)
            (match s return shape_all P s with ShUnit => I | ShNew t => ty_all t | ShTuple l => go l | ShStruct l => gos l end) (gov l)
        end) l)
    | TBlock b t => Hbl b t (ty_all t) | TValue => Hv
    end.
End Ind.

(** ** Lists of pairs *)
Lemma all2_combine {A B} (P : A -> B -> Prop) l : forall m,
  all2 P l m <-> length l = length m /\ Forall (fun p => P (fst p) (snd p)) (combine l m).
Proof.
  induction l as [|x l IH]; intros [|y m]; cbn [all2 length combine]; split; try tauto; try (intros [H _]; discriminate); auto.
  - intros [H1 H2]. apply IH in H2 as [H2 H3]. split; [congruence|]. now constructor.
  - intros [H1 H2]. inversion H2; subst. split; [assumption|]. apply IH. split; [congruence|assumption].
Qed.
Lemma zip_combine {T A} (f : T -> tv -> A) ts : forall xs, zip f ts xs = map (fun p => f (fst p) (snd p)) (combine ts xs).
Proof. induction ts as [|t ts IH]; intros [|x xs]; cbn; auto. f_equal. apply IH. Qed.
Lemma combine_fst {A B} (l : list A) : forall (m : list B), length l = length m -> map fst (combine l m) = l.
Proof. induction l as [|x l IH]; intros [|y m]; cbn; try discriminate; auto. intros H. f_equal. apply IH. congruence. Qed.
Lemma combine_snd {A B} (l : list A) : forall (m : list B), length l = length m -> map snd (combine l m) = m.
Proof. induction l as [|x l IH]; intros [|y m]; cbn; try discriminate; auto. intros H. f_equal. apply IH. congruence. Qed.
Lemma combine_In_l {A B} (P : A -> Prop) (l : list A) : forall (m : list B), Forall P l -> Forall (fun p => P (fst p)) (combine l m).
Proof. induction l as [|x l IH]; intros [|y m] H; cbn; constructor; inversion H; auto. Qed.
Lemma pick_nth {A B} (g : A -> B) d l : forall i, pick g d l i = match nth_error l i with Some x => g x | None => d end.
Proof. induction l as [|x l IH]; intros [|i]; cbn; auto. Qed.
Lemma at_index_nth {A} (P : A -> Prop) l i : at_index P l i -> exists x, nth_error l i = Some x /\ P x.
Proof. unfold at_index. rewrite pick_nth. destruct (nth_error l i); [eauto|intros []]. Qed.
Lemma Forall_nth {A} (P : A -> Prop) l i x : Forall P l -> nth_error l i = Some x -> P x.
Proof. intros H E. rewrite Forall_forall in H. apply H. eapply nth_error_In; eauto. Qed.
Lemma Forall2_map_r {A B C} (R : A -> C -> Prop) (g : B -> C) l m : Forall2 (fun x y => R x (g y)) l m -> Forall2 R l (map g m).
Proof. induction 1; cbn; constructor; auto. Qed.
Lemma Forall2_impl {A B} (R S : A -> B -> Prop) l m : (forall x y, R x y -> S x y) -> Forall2 R l m -> Forall2 S l m.
Proof. intros H. induction 1; constructor; auto. Qed.
Lemma Forall2_Forall_r {A B} (R : A -> B -> Prop) (Q : B -> Prop) l m : (forall x y, R x y -> Q y) -> Forall2 R l m -> Forall Q m.
Proof. intros H. induction 1; constructor; eauto. Qed.

(** ** Computations that leave the state alone *)
Section Gives.
  Context (F : tls -> Prop).
  Definition gives {A} (m : M A) (y : A) : Prop := forall s, F s -> m s = (SOk y, s).
  Lemma gives_ret {A} (y : A) : gives (ret y) y. Proof. intros s _. reflexivity. Qed.
  Lemma gives_bind {A B} (m : M A) (f : A -> M B) x y : gives m x -> gives (f x) y -> gives (bind m f) y.
  Proof. intros H1 H2 s Hs. unfold bind. rewrite H1 by exact Hs. now apply H2. Qed.
  Lemma gives_fmap {A B} (g : A -> B) m x : gives m x -> gives (fmap g m) (g x).
  Proof. intros H. eapply gives_bind; [exact H|]. apply gives_ret. Qed.
  Lemma gives_mapm {A B C} (f : B -> M C) (h : A -> B) (R : A -> C -> Prop) l :
    Forall (fun x => exists y, gives (f (h x)) y /\ R x y) l -> exists ys, gives (mapm f (map h l)) ys /\ Forall2 R l ys.
  Proof.
    induction 1 as [|x l (y & H1 & H2) _ (ys & H3 & H4)]; cbn [map mapm].
    - exists []. split; [apply gives_ret|constructor].
    - exists (y :: ys). split; [|now constructor]. eapply gives_bind; [exact H1|]. eapply gives_bind; [exact H3|]. apply gives_ret.
  Qed.
  Lemma gives_eq {A} (m m' : M A) y : (forall s, F s -> m s = m' s) -> gives m' y -> gives m y.
  Proof. intros E H s Hs. rewrite E by exact Hs. now apply H. Qed.
End Gives.

(** ** Reading sequences and structs *)
Section Read.
  Context (interp : expr -> str).
  Lemma de_all_2 {A B} (f : A -> option B) l m : Forall2 (fun x y => f x = Some y) l m -> de_all f l = Some m.
  Proof. induction 1 as [|x y l m H _ IH]; cbn; [reflexivity|]. now rewrite H, IH. Qed.
  Lemma de_tuple_2 {T} (f : T -> src -> option tv) ts : forall xs ys, length ts = length xs ->
    Forall2 (fun p y => f (fst p) y = Some (snd p)) (combine ts xs) ys -> de_tuple f ts ys = Some xs.
  Proof.
    induction ts as [|t ts IH]; intros [|x xs] ys L H; try discriminate; cbn [combine] in H; [reflexivity|].
    inversion H as [|? y ? ys' H1 H2]; subst. cbn [de_tuple]. cbn [fst snd] in H1. rewrite H1. rewrite (IH xs); auto.
  Qed.

  Lemma position_skip s l : ~ In s l -> position s l = None.
  Proof.
    induction l as [|x l IH]; cbn; intros H; [reflexivity|]. destruct (seqb s x) eqn:E.
    - apply seqb_eq in E. subst. destruct H. now left.
    - rewrite IH by tauto. reflexivity.
  Qed.
  Lemma position_app s l m : ~ In s l -> position s (l ++ s :: m) = Some (length l).
  Proof.
    induction l as [|x l IH]; cbn; intros H; [now rewrite seqb_refl|]. destruct (seqb s x) eqn:E.
    - apply seqb_eq in E. subst. destruct H. now left.
    - rewrite IH by tauto. reflexivity.
  Qed.
  Lemma values_at_other refs i : Forall (fun r => forall j, fst r = Some j -> j <> i) refs -> values_at refs i = [].
  Proof.
    unfold values_at. induction 1 as [|[r s] refs H _ IH]; cbn; [reflexivity|]. destruct r as [j|]; cbn in *; [|exact IH].
    destruct (Nat.eqb_spec i j); [|exact IH]. subst. now destruct (H j eq_refl).
  Qed.
  Lemma values_at_app r r' i : values_at (r ++ r') i = values_at r i ++ values_at r' i.
  Proof. unfold values_at. apply flat_map_app. Qed.

  (** The fields of a struct with each of its keys once, in the order of the declaration. *)
  Fixpoint numbered (i : nat) (l : list src) : list (option nat * src) :=
    match l with [] => [] | s :: l => (Some i, s) :: numbered (S i) l end.
  Lemma numbered_ge i l : Forall (fun r => forall j, fst r = Some j -> i <= j) (numbered i l).
  Proof.
    revert i. induction l as [|s l IH]; intros i; cbn; constructor.
    - cbn. intros j [= ->]. lia.
    - eapply Forall_impl; [|apply (IH (S i))]. cbn. intros r H j E. specialize (H j E). lia.
  Qed.
  Lemma de_fields_numbered {T} (f : T -> src -> option tv) ts : forall l i pre,
    length ts = length l -> Forall (fun r => forall j, fst r = Some j -> j < i) pre ->
    de_fields f (values_at (pre ++ numbered i l)) i ts = de_tuple f ts l.
  Proof.
    induction ts as [|t ts IH]; intros [|s l] i pre L H; try discriminate; cbn [de_fields de_tuple numbered]; [reflexivity|].
    rewrite values_at_app, values_at_other.
    2:{ eapply Forall_impl; [|exact H]. cbn. intros r Hr j E. specialize (Hr j E). lia. }
    cbn [app]. assert (V : values_at ((Some i, s) :: numbered (S i) l) i = [s]).
    { unfold values_at. cbn [flat_map fst snd]. rewrite Nat.eqb_refl. fold (values_at (numbered (S i) l) i). rewrite values_at_other; [reflexivity|].
      eapply Forall_impl; [|apply numbered_ge]. cbn. intros r Hr j E. specialize (Hr j E). lia. }
    rewrite V. destruct (f t s); [|reflexivity]. f_equal. change ((Some i, s) :: numbered (S i) l) with ([(Some i, s)] ++ numbered (S i) l).
    rewrite app_assoc. apply IH; [now injection L|]. apply Forall_app. split.
    - eapply Forall_impl; [|exact H]. cbn. intros r Hr j E. specialize (Hr j E). lia.
    - constructor; [|constructor]. cbn. intros j [= ->]. lia.
  Qed.
  Lemma refs_numbered (ask_ : src -> option (option nat)) names : forall done ks l, NoDup (done ++ names) -> length names = length l ->
    Forall2 (fun k n => ask_ k = Some (position n (done ++ names))) ks names ->
    de_all (fun p => option_map (fun r => (r, snd p)) (ask_ (fst p))) (combine ks l) = Some (numbered (length done) l).
  Proof.
    induction names as [|n names IH]; intros done ks [|s l] N L H; try discriminate; inversion H as [|k0 n0 ks0 ns0 H2 H3]; subst; cbn [combine de_all numbered]; [reflexivity|].
    cbn [fst snd]. rewrite H2. assert (D : ~ In n done).
    { apply NoDup_remove_2 in N. intros D. apply N. apply in_or_app. now left. }
    rewrite position_app by exact D. cbn [option_map].
    assert (A : done ++ n :: names = (done ++ [n]) ++ names) by now rewrite <- app_assoc.
    rewrite (IH (done ++ [n])).
    - rewrite app_length. cbn [length]. replace (length done + 1) with (S (length done)) by lia. reflexivity.
    - now rewrite <- A.
    - cbn in L. congruence.
    - now rewrite <- A.
  Qed.
  Lemma de_struct_map f fs ks l : NoDup (map fst fs) -> length fs = length l ->
    Forall2 (fun k n => field_ref interp (map fst fs) k = Some (position n (map fst fs))) ks (map fst fs) ->
    de_struct interp f fs (Some (VisMap (combine ks l))) = de_tuple f fs l.
  Proof.
    intros N L H. cbn [de_struct]. rewrite (refs_numbered _ (map fst fs) []).
    - apply (de_fields_numbered f fs l 0 []); [exact L|constructor].
    - exact N.
    - now rewrite map_length.
    - exact H.
  Qed.
  Lemma position_nth names : forall i n, NoDup names -> nth_error names i = Some n -> position n names = Some i.
  Proof.
    intros i n N E. apply nth_error_split in E as (l1 & l2 & -> & <-). apply position_app.
    apply NoDup_remove_2 in N. intros D. apply N. apply in_or_app. now left.
  Qed.
End Read.

(** ** Keys *)
Lemma list_eqb_imp {A} (q : A -> A -> bool) l : Forall (fun a => forall b, q a b = true -> a = b) l ->
  forall m, list_eqb q l m = true -> l = m.
Proof.
  induction 1 as [|a l Ha _ IH]; intros [|c m]; cbn; try discriminate; [reflexivity|]. intros H. apply andb_true_iff in H as [H1 H2].
  f_equal; auto.
Qed.
Fixpoint key_eqb_eq (a : tv) : forall b, key_eqb a b = true -> a = b.
Proof.
  assert (L : forall l : list tv, Forall (fun a => forall b, key_eqb a b = true -> a = b) l -> forall m, list_eqb key_eqb l m = true -> l = m)
    by (intros l; apply list_eqb_imp).
  destruct a; intros [] H; cbn [key_eqb] in H; try discriminate; try reflexivity.
  - apply Bool.eqb_prop in H. now subst.
  - apply Z.eqb_eq in H. now subst.
  - apply N.eqb_eq in H. now subst.
  - apply seqb_eq in H. now subst.
  - f_equal. now apply key_eqb_eq.
  - f_equal. apply L; [|exact H]. clear -key_eqb_eq. induction l as [|a l IH]; constructor; [exact (key_eqb_eq a)|exact IH].
  - apply andb_true_iff in H as [H1 H2]. apply Nat.eqb_eq in H1. subst. f_equal. apply L; [|exact H2].
    clear -key_eqb_eq. induction l as [|a l IH]; constructor; [exact (key_eqb_eq a)|exact IH].
Qed.
Lemma nodup_differ {K} (eqb : K -> K -> bool) (ks : list K) : (forall a b, eqb a b = true -> a = b) -> NoDup ks -> differ eqb ks.
Proof.
  intros E. induction 1 as [|k ks Hk _ IH]; cbn; [exact I|]. split; [|exact IH]. apply Forall_forall. intros k' H'.
  destruct (eqb k' k) eqn:Q; [|reflexivity]. apply E in Q. subst. contradiction.
Qed.
(** Keys from which different keys are read are different. *)
Lemma nodup_image {A B} (f : B -> option A) ks : forall cs, Forall2 (fun k c => f c = Some k) ks cs -> NoDup ks -> NoDup cs.
Proof.
  induction ks as [|k ks IH]; intros cs H N; inversion H; subst; constructor; inversion N; subst; [|now apply IH].
  intros I. match goal with H : ~ In k ks |- _ => apply H end. clear -I H2 H4. induction H4 as [|k' c' ks cs E _ IH]; [destruct I|].
  destruct I as [->|I]; [left; congruence|right; auto].
Qed.

(** ** Numbers *)
Lemma f64_back (f : f64) z : is_finite f = true -> f <> B754_zero true -> (Z.abs z <= 2 ^ 64)%Z -> B2R f = IZR z -> f64_of_Z z = f.
Proof.
  intros Hf H0 Hz E. destruct (f64_of_Z_round z Hz) as [R1 R2].
  assert (R3 : B2R (f64_of_Z z) = B2R f).
  { rewrite R1, <- E. apply round_generic; [apply valid_rnd_round_mode|]. apply generic_format_B2R. }
  destruct (Req_dec (B2R f) 0) as [Z0|NZ].
  - rewrite Z0 in E. assert (z = 0%Z) by (apply eq_IZR; now symmetry). subst z.
    destruct f as [[]|[]| |s m e B]; try discriminate; [congruence|reflexivity|].
    exfalso. cbn [B2R] in Z0. apply eq_0_F2R in Z0. destruct s; discriminate.
  - apply B2R_inj; auto.
    + destruct (f64_of_Z z) as [| | |]; try discriminate; [|reflexivity]. exfalso. apply NZ. now rewrite <- R3.
    + destruct f as [| | |]; try discriminate; [|reflexivity]. now destruct NZ.
Qed.

(** What can be read, and is read as it is. *)
Definition exact_expr u b pf sf c (e : expr) : Prop := FmtReadSpec.readable u b pf sf c e /\ FmtReadSpec.strict e.
Definition exact_struct u b pf sf c (s : struct_) : Prop := FmtReadSpec.struct_readable u b pf sf c s /\ FmtReadSpec.struct_strict s.
Definition exact_body u b pf sf c (l : rbody) : Prop := lall (exact_struct u b pf sf c) l /\ NoDup (ConvSpec.attr_keys l).
Lemma exact_body_readable u b pf sf c l : exact_body u b pf sf c l -> FmtReadSpec.body_readable u b pf sf c l /\ lall FmtReadSpec.struct_strict l.
Proof.
  intros [H N]. apply FmtValueProofs.lall_Forall in H. split; [split; [|exact N]|]; apply FmtValueProofs.lall_Forall; (eapply Forall_impl; [|exact H]); cbn; intros a Ha; apply Ha.
Qed.
