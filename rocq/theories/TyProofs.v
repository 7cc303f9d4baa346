(** Typed data as values (C47). *)
From Coq Require Import NArith ZArith Reals Bool String List Lia.
From Flocq Require Import IEEE754.BinarySingleNaN.
From Verif Require Import Res Str NumberModel FloatProofs NumberProofs PrimModel Ast EvalSpec EqSpec EvalIp SerModel SerSpec SerProofs SerText DeModel TyModel TySpec TyBase EqProofs.
From Verif Require MapModel.
Import ListNotations.
Open Scope list_scope.

(** ** Numbers *)
Lemma int_range w z : (int_min w <= z <= int_max w)%Z -> in_range w z = true.
Proof. intros [H1 H2]. unfold in_range. apply andb_true_iff. split; now apply Z.leb_le. Qed.
Lemma num_of_u64_of_Z z : (0 <= z)%Z -> num_of_u64 z = num_of_Z z.
Proof. intros H. unfold num_of_u64, num_of_Z. destruct (Z.ltb_spec z 0); [lia|reflexivity]. Qed.
Lemma int_bounds w z : (int_min w <= z <= int_max w)%Z -> (i64_min <= z <= u64_max)%Z /\ (signed w = false -> 0 <= z)%Z.
Proof. destruct w; cbn [int_min int_max signed]; unfold i64_min, u64_max; intros H; (split; [lia|]); intros E; try discriminate; lia. Qed.
Definition float_of_num (n : num) : f64 := match n with PosInt z | NegInt z => f64_of_Z z | NFloat f => f end.
Lemma float_read b f : float_kept f -> exists n, num_from_f64 b f = Done (Some n) /\ float_of_num n = f.
Proof.
  intros (Hf & H0 & HI). destruct (from_finite_f64_spec b f Hf) as (n & E & _ & H1 & H2).
  exists n. split; [unfold num_from_f64, f64_finite; rewrite Hf, E; reflexivity|].
  destruct (f64_no_fraction f) eqn:D.
  - apply no_fraction_spec in D as [_ [z Ez]]. destruct HI as [L1 L2]; [now exists z|]. rewrite Ez in L1, L2. apply le_IZR in L1, L2.
    rewrite (H1 z Ez). rewrite Z.min_r, Z.max_r by lia. unfold num_of_Z. unfold i64_min, i64_max in *.
    assert (f64_of_Z z = f) by (apply f64_back; auto; lia). destruct (z <? 0)%Z; exact H.
  - rewrite H2; [reflexivity|]. intros I. assert (f64_no_fraction f = true) by now apply no_fraction_spec. congruence.
Qed.
Lemma map_combine2 {A B C D} (f : A -> C) (g : B -> D) l : forall m, map (fun p => (f (fst p), g (snd p))) (combine l m) = combine (map f l) (map g m).
Proof. induction l as [|x l IH]; intros [|y m]; cbn; auto. f_equal. apply IH. Qed.
Lemma Forall2_same {A B} (R : A -> B -> Prop) (f : B -> A) l : (forall x, R (f x) x) -> Forall2 R (map f l) l.
Proof. intros H. induction l; cbn; constructor; auto. Qed.
Lemma Forall2_length {A B} (R : A -> B -> Prop) l m : Forall2 R l m -> length l = length m.
Proof. induction 1; cbn; congruence. Qed.
Lemma Forall_and2 {A} (P Q : A -> Prop) l : Forall P l -> Forall Q l -> Forall (fun x => P x /\ Q x) l.
Proof. induction 1; intros H'; inversion H'; subst; constructor; auto. Qed.
Lemma nodup_nth_name {A} (l : list (str * A)) i n x : NoDup (map fst l) -> nth_error l i = Some (n, x) -> position n (map fst l) = Some i.
Proof. intros N E. apply position_nth; [exact N|]. rewrite nth_error_map, E. reflexivity. Qed.

Section Value.
  Context (u : unicode) (b : build) (pf : str -> f64) (sf : f64 -> str) (nested : top -> sd -> M bool) (interp : expr -> str).
  Notation dev := (de interp (hcl_num b) (de_value b)).
  Notation kept := (kept u b pf sf ByValue).
  Notation key_kept := (key_kept ByValue).
  Notation gives := (gives (fun _ => True)).

  (** Keys. *)
  Lemma key_value k x : proper k -> has k x -> key_kept k x ->
    exists s, gives (ser_string nested (ser k x)) s /\ dev k (SText s) = Some x.
  Proof.
    induction k as [| | | | | | |k IH|k IH|l IH|k0 k IH0 IH|n k IH|n l IH|l IH|lb k IH|] using ty_all; intros P H K; cbn [TySpec.key_kept] in K; try contradiction.
    - destruct x; try contradiction. destruct K as [K _]. discriminate.
    - destruct x; try contradiction. eexists. split; [apply gives_ret|]. reflexivity.
    - destruct x; try contradiction. eexists. split; [apply gives_ret|]. reflexivity.
    - destruct x as [| | | | | | | | | |i xs|]; try contradiction. destruct K as [_ K]. apply at_index_nth in K as ([n s] & E & K). cbn in K. subst s.
      cbn [ser has] in *. unfold at_index in H. rewrite pick_nth, E in H. rewrite pick_nth, E. subst xs. exists n. split; [apply gives_ret|].
      cbn [de ask ask_text]. unfold variant_ref, field_ref. cbn [ask ask_text]. rewrite (nodup_nth_name _ _ _ _ (proj1 P) E).
      rewrite pick_nth, E. reflexivity.
    - destruct (IH P H K) as (s & G & D). exists s. split; [exact G|exact D].
  Qed.

  Definition Pv (t : ty) : Prop := forall x, proper t -> has t x -> kept t x ->
    exists v, gives (ser_value b nested (ser t x)) v /\ dev t (SVal v) = Some x /\ (v = VNull -> nullish t x).

  Lemma tuple_value ts l : Forall Pv ts -> lall proper ts -> all2 has ts l -> all2 kept ts l ->
    exists ys, gives (mapm (ser_value b nested) (zip ser ts l)) ys /\ de_tuple dev ts (map SVal ys) = Some l.
  Proof.
    intros IH P H K. apply all2_combine in H as [L H]. apply all2_combine in K as [_ K]. rewrite zip_combine.
    apply lall_Forall in P.
    destruct (gives_mapm (fun _ => True) (ser_value b nested) (fun p => ser (fst p) (snd p)) (fun p v => dev (fst p) (SVal v) = Some (snd p)) (combine ts l)) as (ys & G & R).
    - assert (A := combine_In_l _ _ l (Forall_and2 _ _ _ IH P)). rewrite Forall_forall in *. intros p Hp. destruct (A p Hp) as [A1 A2].
      destruct (A1 (snd p) A2 (H p Hp) (K p Hp)) as (v & G & D & _). eauto.
    - exists ys. split; [exact G|]. apply de_tuple_2; [exact L|]. now apply Forall2_map_r.
  Qed.
  Lemma fields_value fs l : Forall (fun f => Pv (snd f)) fs -> lall (fun f : str * ty => match f with (_, t) => proper t end) fs ->
    all2 (fun f => match f with (_, t) => has t end) fs l -> all2 (fun f x => match f with (n, t) => text_kept ByValue n /\ kept t x end) fs l ->
    NoDup (map fst fs) ->
    exists ys, gives (mapm (fun p => match p with (k, d) => do! x <- ser_value b nested d; ret (k, x) end)
        (zip (fun f x => match f with (n, t) => (n, ser t x) end) fs l)) (combine (map fst fs) ys) /\
      value_obj (combine (map fst fs) ys) = VObj (combine (map fst fs) ys) /\
      de_struct interp (fun f => match f with (_, t) => dev t end) fs (Some (value_any (VObj (combine (map fst fs) ys)))) = Some l.
  Proof.
    intros IH P H K N. apply all2_combine in H as [L H]. apply all2_combine in K as [_ K]. rewrite zip_combine.
    apply lall_Forall in P.
    destruct (gives_mapm (fun _ => True) (fun p => match p with (k, d) => do! x <- ser_value b nested d; ret (k, x) end)
      (fun p : (str * ty) * tv => match fst p with (n, t) => (n, ser t (snd p)) end)
      (fun p q => fst q = fst (fst p) /\ dev (snd (fst p)) (SVal (snd q)) = Some (snd p)) (combine fs l)) as (qs & G & R).
    - assert (A := combine_In_l _ _ l (Forall_and2 _ _ _ IH P)). rewrite Forall_forall in *. intros [[n t] x] Hp. destruct (A _ Hp) as [A1 A2].
      destruct (A1 x A2 (H _ Hp) (proj2 (K _ Hp))) as (v & G & D & _). exists (n, v). split; [|now split].
      cbn [fst snd]. eapply gives_bind; [exact G|]. apply gives_ret.
    - exists (map snd qs). assert (Lq : length fs = length qs) by (rewrite <- (Forall2_length _ _ _ R), combine_length; lia).
      assert (E : qs = combine (map fst fs) (map snd qs)).
      { clear -R L. revert l qs L R. induction fs as [|f fs IH]; intros [|x l] qs L R; try discriminate; inversion R as [|? q ? qs' [E _] R']; subst; [reflexivity|].
        cbn. destruct q as [n v]. cbn in *. subst. f_equal. apply (IH l); auto. }
      rewrite <- E. split; [exact G|]. assert (Nq : map fst qs = map fst fs) by (rewrite E at 1; rewrite combine_fst; [reflexivity|now rewrite !map_length]).
      split; [unfold value_obj; now rewrite from_iter_nodup by now rewrite Nq|].
      cbn [value_any]. rewrite E. rewrite map_combine2.
      rewrite de_struct_map; [|exact N|now rewrite !map_length|apply Forall2_same; intros n; reflexivity].
      apply de_tuple_2; [exact L|]. do 2 apply Forall2_map_r. eapply Forall2_impl; [|exact R]. cbn. intros [[n t] x] q [_ D]. exact D.
  Qed.

  Lemma typed_value t : Pv t.
  Proof.
    induction t as [|w| | | | | |t IH|t IH|ts IH|k t IHk IH|n t IH|n fs IH|vs IH|lb t IH|] using ty_all; intros x P H K.
    - destruct x as [d| | | | | | | | | | |]; try contradiction. eexists. split; [apply gives_ret|]. split; [reflexivity|discriminate].
    - destruct x as [|z| | | | | | | | | |]; try contradiction. cbn [has] in H. destruct (int_bounds w z H) as [_ B]. exists (VNum (num_of_Z z)). split; [|split; [|discriminate]].
      + cbn [ser]. destruct (signed w); cbn [ser_value].
        * rewrite num_of_i64_of_Z. apply gives_ret.
        * rewrite num_of_u64_of_Z by auto. apply gives_ret.
      + cbn [de ask ask_value value_any]. unfold num_of_Z. destruct (z <? 0)%Z; cbn [visit_number]; now rewrite int_range.
    - destruct x as [| |f| | | | | | | | |]; try contradiction. cbn [TySpec.kept] in K. destruct (float_read b f (proj1 K)) as (n & E & R). exists (VNum n). split; [|split; [|discriminate]].
      + cbn [ser ser_value]. intros s _. rewrite of_f64_num, E. reflexivity.
      + cbn [de ask ask_value value_any]. destruct n; cbn in *; now rewrite R.
    - destruct x as [| | |c| | | | | | | |]; try contradiction. eexists. split; [apply gives_ret|]. split; [reflexivity|discriminate].
    - destruct x as [| | | |s| | | | | | |]; try contradiction. eexists. split; [apply gives_ret|]. split; [reflexivity|discriminate].
    - destruct x; try contradiction. eexists. split; [apply gives_ret|]. split; [reflexivity|exact (fun _ => I)].
    - destruct x; try contradiction. eexists. split; [apply gives_ret|]. split; [reflexivity|exact (fun _ => I)].
    - destruct x as [| | | | | | |x| | | |]; try contradiction.
      + eexists. split; [apply gives_ret|]. split; [reflexivity|exact (fun _ => I)].
      + destruct K as [K KN]. destruct (IH x P H K) as (v & G & D & N). exists v. split; [exact G|]. split; [|intros E; now apply N].
        cbn [de ask ask_value]. destruct v; try (now rewrite D). destruct (KN (N eq_refl)).
    - destruct x as [| | | | | | | |l| | |]; try contradiction. cbn [has TySpec.kept] in *. apply lall_Forall in H, K. cbn [ser ser_value].
      destruct (gives_mapm (fun _ => True) (ser_value b nested) (ser t) (fun x v => dev t (SVal v) = Some x) l) as (ys & G & R).
      + rewrite Forall_forall in *. intros x Hx. destruct (IH x P (H x Hx) (K x Hx)) as (v & G & D & _). eauto.
      + exists (VArr ys). split; [now apply gives_fmap|]. split; [|discriminate]. cbn [de ask ask_value value_any]. rewrite (de_all_2 _ _ l); [reflexivity|].
        clear -R. induction R; cbn; constructor; auto.
    - destruct x as [| | | | | | | |l| | |]; try contradiction. cbn [has TySpec.kept proper] in *. destruct (tuple_value ts l IH P H K) as (ys & G & D).
      exists (VArr ys). split; [now apply gives_fmap|]. split; [|discriminate]. cbn [de ask ask_value value_any]. rewrite D. reflexivity.
    - destruct x as [| | | | | | | | |l| |]; try contradiction. cbn [has TySpec.kept proper] in *. destruct H as [H N]. destruct P as [Pk P]. apply lall_Forall in H, K. cbn [ser ser_value].
      destruct (gives_mapm (fun _ => True) (fun p => match p with (k, d) => do! k <- ser_string nested k; do! x <- ser_value b nested d; ret (k, x) end)
        (fun p => (ser k (fst p), ser t (snd p))) (fun p q => dev k (SText (fst q)) = Some (fst p) /\ dev t (SVal (snd q)) = Some (snd p)) l) as (qs & G & R).
      + rewrite Forall_forall in *. intros [y x] Hx. destruct (H _ Hx) as [H1 H2], (K _ Hx) as [K1 K2]. cbn [fst snd] in *.
        destruct (key_value k y Pk H1 K1) as (s & G1 & D1). destruct (IH x P H2 K2) as (v & G2 & D2 & _).
        exists (s, v). split; [|now split]. eapply gives_bind; [exact G1|]. eapply gives_bind; [exact G2|]. apply gives_ret.
      + assert (Nq : NoDup (map fst qs)).
        { apply (nodup_image (fun s => dev k (SText s)) (map fst l)); [|exact N]. clear -R. induction R as [|p q l qs [R1 R2] _ IH]; cbn; constructor; auto. }
        exists (VObj qs). split; [|split; [|discriminate]].
        * replace (VObj qs) with (value_obj qs) by (unfold value_obj; now rewrite from_iter_nodup). now apply gives_fmap.
        * cbn [de ask ask_value value_any]. rewrite (de_all_2 _ _ l).
          -- cbn [option_map]. rewrite from_iter_fresh; [reflexivity|]. apply nodup_differ; [exact key_eqb_eq|exact N].
          -- clear -R. induction R as [|p q l qs [R1 R2] _ IH]; cbn; constructor; auto. cbn. rewrite R1, R2. now destruct p.
    - destruct K as [K _]. discriminate.
    - destruct x as [| | | | | | | |l| | |]; try contradiction. cbn [has TySpec.kept proper] in *. destruct P as (P1 & P2 & N & P).
      destruct (fields_value fs l IH P H K N) as (ys & G & V & D). cbn [ser ser_value].
      eexists. split; [apply gives_fmap; exact G|]. rewrite V. split; [|discriminate]. cbn [de ask ask_value]. rewrite D. reflexivity.
    - destruct x as [| | | | | | | | | |i l|]; try contradiction. cbn [has TySpec.kept proper ser] in *. destruct P as [N P]. unfold at_index in *. rewrite pick_nth in H, K. rewrite pick_nth.
      destruct (nth_error vs i) as [[n s]|] eqn:E; [|contradiction]. assert (IHs := Forall_nth _ _ _ _ IH E). apply lall_Forall in P. assert (Ps := Forall_nth _ _ _ _ P E). cbn in IHs, Ps.
      destruct s as [|t|ts|fs].
      + subst l. exists (VStr n). split; [apply gives_ret|]. split; [|discriminate]. cbn [de ask ask_value]. unfold variant_ref, field_ref. cbn [ask ask_text].
        rewrite (nodup_nth_name _ _ _ _ N E). rewrite pick_nth, E. reflexivity.
      + destruct l as [|x [|]]; try contradiction. destruct (IHs x Ps H (proj2 K)) as (v & G & D & _). exists (VObj [(n, v)]). split; [|split; [|discriminate]].
        * cbn [ser_value]. eapply gives_bind; [exact G|]. apply gives_ret.
        * cbn [de ask ask_value]. unfold variant_ref, field_ref. cbn [ask ask_text]. rewrite (nodup_nth_name _ _ _ _ N E). rewrite pick_nth, E. cbn [variant_src]. rewrite D. reflexivity.
      + destruct (tuple_value ts l IHs Ps H (proj2 K)) as (ys & G & D). exists (VObj [(n, VArr ys)]). split; [|split; [|discriminate]].
        * cbn [ser_value]. eapply gives_bind; [exact G|]. apply gives_ret.
        * cbn [de ask ask_value]. unfold variant_ref, field_ref. cbn [ask ask_text]. rewrite (nodup_nth_name _ _ _ _ N E). rewrite pick_nth, E. cbn [ask_variant ask_value value_any]. rewrite D. reflexivity.
      + destruct Ps as [Ns Ps]. destruct (fields_value fs l IHs Ps H (proj2 K) Ns) as (ys & G & V & D). exists (VObj [(n, VObj (combine (map fst fs) ys))]). split; [|split; [|discriminate]].
        * cbn [ser_value]. eapply gives_bind; [exact G|]. rewrite V. apply gives_ret.
        * cbn [de ask ask_value]. unfold variant_ref, field_ref. cbn [ask ask_text]. rewrite (nodup_nth_name _ _ _ _ N E). rewrite pick_nth, E. cbn [ask_variant ask_value]. rewrite D. reflexivity.
    - destruct (IH x P H K) as (v & G & D & N). exists v. split; [exact G|]. split; [exact D|exact N].
    - destruct x as [| | | | | | | | | | |v]; try contradiction. cbn [has TySpec.kept] in *. destruct K as [K _]. exists v. assert (E := de_value_same b v H K).
      split; [intros s _; cbn [ser]; now rewrite ser_value_value, E|]. split; [cbn [de de_hcl_value]; now rewrite E|intros ->; exact I].
  Qed.
End Value.
