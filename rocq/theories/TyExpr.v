(** Typed data as expressions (C48). *)
From Coq Require Import NArith ZArith Bool String List Lia.
From Verif Require Import Res Str Dec NumberModel NumberProofs PrimModel PrimProofs Ast EvalSpec EqSpec EqProofs EvalIp ConvSpec FmtModel FmtReadSpec.
From Verif Require Import SerModel SerSpec SerProofs SerText DeModel TyModel TySpec TyBase TyProofs.
From Verif Require MapModel FmtValueProofs.
Import ListNotations.
Open Scope list_scope.

(** The keys of maps. *)
Inductive kcode := Ks (s : str) | Kn (z : Z).
Definition key_of (k : kcode) : okey expr := match k with Ks s => KExpr (EStr s) | Kn z => KExpr (ENum (PosInt z)) end.
Definition code_ok (k : kcode) : Prop := match k with Ks s => escape_ok s = true | Kn z => (0 <= z <= u64_max)%Z end.
Lemma key_of_apart k k' : okey_eqb expr_eqb (key_of k) (key_of k') = true -> k = k'.
Proof.
  destruct k as [s|z], k' as [s'|z']; cbn; try discriminate.
  - intros H. apply seqb_eq in H. now subst.
  - intros H. apply Z.eqb_eq in H. now subst.
Qed.
Lemma keys_differ_apart ks : NoDup ks -> ForallOrdPairs apart_keys (map key_of ks).
Proof.
  induction 1 as [|k ks Hk _ IH]; cbn; constructor; [|exact IH]. apply Forall_forall. intros q Hq. apply in_map_iff in Hq as (k' & <- & H').
  unfold apart_keys. assert (E : forall k, unexpand_key (key_of k) = key_of k) by now intros []. rewrite !E.
  destruct (okey_eqb expr_eqb (key_of k) (key_of k')) eqn:Q; [|reflexivity]. apply key_of_apart in Q. now subst.
Qed.
Lemma keys_differ ks : NoDup ks -> differ (okey_eqb expr_eqb) (map key_of ks).
Proof.
  induction 1 as [|k ks Hk _ IH]; cbn; [exact I|]. split; [|exact IH]. apply Forall_forall. intros q Hq. apply in_map_iff in Hq as (k' & <- & H').
  destruct (okey_eqb expr_eqb (key_of k') (key_of k)) eqn:Q; [|reflexivity]. apply key_of_apart in Q. now subst.
Qed.

Section Expr.
  Context (u : unicode) (b : build) (pf : str -> f64) (sf : f64 -> str) (c : cfg) (nested : top -> sd -> M bool) (interp : expr -> str).
  Context (HC : c_ident_keys c = false) (F : tls -> Prop).
  Notation dee := (de interp (hcl_num b) (de_value b)).
  Notation kept := (kept u b pf sf ByText).
  Notation key_kept := (key_kept ByText).
  Notation gives := (gives F).
  Notation readable := (exact_expr u b pf sf c).
  Notation ser_expr := (ser_expr u b nested).

  Lemma key_text k x : proper k -> has k x -> key_kept k x ->
    exists q, gives (ser_key u nested (ser k x)) (key_of q) /\ code_ok q /\ dee k (SKey (key_of q)) = Some x.
  Proof.
    induction k as [|w| | | | | |k IH|k IH|l IH|k0 k IH0 IH|n k IH|n l IH|l IH|lb k IH|] using ty_all; intros P H K; cbn [TySpec.key_kept] in K; try contradiction.
    - destruct x as [|z| | | | | | | | | |]; try contradiction. cbn [has] in H. destruct (int_bounds w z H) as [B _]. destruct K as [_ K]. exists (Kn z). split; [|split].
      + cbn [ser]. destruct (signed w); cbn [ser_key].
        * rewrite num_of_i64_of_Z. unfold num_of_Z. destruct (Z.ltb_spec z 0); [lia|]. apply gives_ret.
        * rewrite num_of_u64_of_Z by exact K. unfold num_of_Z. destruct (Z.ltb_spec z 0); [lia|]. apply gives_ret.
      + cbn [code_ok]. lia.
      + cbn. now rewrite int_range.
    - destruct x as [| | |ch| | | | | | | |]; try contradiction. exists (Ks [ch]). split; [apply gives_ret|]. split; [exact K|reflexivity].
    - destruct x as [| | | |s| | | | | | |]; try contradiction. exists (Ks s). split; [apply gives_ret|]. split; [exact K|reflexivity].
    - destruct x; try contradiction. destruct K as [K _]. discriminate.
    - destruct (IH P H K) as (q & G & O & D). exists q. split; [exact G|]. split; [exact O|exact D].
  Qed.

  (** Objects. *)
  Lemma obj_collect qs : NoDup (map fst qs) -> expr_obj (map (fun q => (key_of (fst q), snd q)) qs) = EObj (map (fun q => (key_of (fst q), snd q)) qs).
  Proof.
    intros N. unfold expr_obj, eobj_collect. rewrite from_iter_fresh; [reflexivity|]. rewrite map_map. cbn [fst].
    rewrite <- (map_map fst key_of). now apply keys_differ.
  Qed.
  Lemma obj_readable qs : NoDup (map fst qs) -> Forall (fun q => code_ok (fst q) /\ readable (snd q)) qs ->
    readable (EObj (map (fun q => (key_of (fst q), snd q)) qs)).
  Proof.
    intros N H. split; [cbn [FmtReadSpec.readable]; split; [|split]|].
    - apply lall_Forall. rewrite Forall_forall in *. intros p Hp. apply in_map_iff in Hp as ([q e] & <- & Hq). destruct (H _ Hq) as [H1 [H2 _]]. cbn [fst snd] in *.
      split; [|exact H2]. destruct q as [s|z]; cbn [key_of code_ok] in *; [now rewrite HC|]. split; [reflexivity|exact H1].
    - rewrite map_map. cbn [fst]. replace (map _ qs) with (map key_of (map fst qs)); [now apply keys_differ_apart|].
      rewrite map_map. apply map_ext. intros [[s|z] e]; cbn; now rewrite ?HC.
    - apply FmtValueProofs.chain_all. intros p p' Hp _. apply in_map_iff in Hp as ([q e] & <- & Hq). cbn [fst]. rewrite Forall_forall in H. destruct (H _ Hq) as [H1 _].
      destruct q as [s|z]; cbn [key_of soft_key soft fst]; [reflexivity|]. cbn in H1. unfold fshow_num. cbn [EncModel.show_num]. unfold show_Z.
      destruct (Z.ltb_spec z 0); [lia|]. destruct (show_N_head (Z.to_N z)) as (x & r & -> & _ & Hd). exact Hd.
    - cbn [strict]. apply lall_Forall. rewrite Forall_forall in *. intros p Hp. apply in_map_iff in Hp as (q & <- & Hq). apply (H q Hq).
  Qed.
  Lemma arr_readable es : Forall readable es -> readable (EArr es).
  Proof. intros H. split; cbn [FmtReadSpec.readable strict]; apply lall_Forall; (eapply Forall_impl; [|exact H]); cbn; intros a Ha; apply Ha. Qed.

  Definition Pe (t : ty) : Prop := forall x, proper t -> has t x -> kept t x ->
    exists e, gives (ser_expr (ser t x)) e /\ dee t (SExp e) = Some x /\ readable e /\ (e = ENull -> nullish t x).

  Lemma tuple_expr ts l : Forall Pe ts -> lall proper ts -> all2 has ts l -> all2 kept ts l ->
    exists es, gives (mapm ser_expr (zip ser ts l)) es /\ de_tuple dee ts (map SExp es) = Some l /\ readable (EArr es).
  Proof.
    intros IH P H K. apply all2_combine in H as [L H]. apply all2_combine in K as [_ K]. rewrite zip_combine.
    apply lall_Forall in P.
    destruct (gives_mapm F ser_expr (fun p => ser (fst p) (snd p)) (fun p v => dee (fst p) (SExp v) = Some (snd p) /\ readable v) (combine ts l)) as (es & G & R).
    - assert (A := combine_In_l _ _ l (Forall_and2 _ _ _ IH P)). rewrite Forall_forall in *. intros p Hp. destruct (A p Hp) as [A1 A2].
      destruct (A1 (snd p) A2 (H p Hp) (K p Hp)) as (v & G & D & RD & _). eauto.
    - exists es. split; [exact G|]. split.
      + apply de_tuple_2; [exact L|]. apply Forall2_map_r. eapply Forall2_impl; [|exact R]. cbn. tauto.
      + apply arr_readable. eapply Forall2_Forall_r; [|exact R]. cbn. tauto.
  Qed.
  Lemma fields_expr fs l : Forall (fun f => Pe (snd f)) fs -> lall (fun f : str * ty => match f with (_, t) => proper t end) fs ->
    all2 (fun f => match f with (_, t) => has t end) fs l -> all2 (fun f x => match f with (n, t) => text_kept ByText n /\ kept t x end) fs l ->
    NoDup (map fst fs) ->
    exists m, gives (fmap expr_obj (mapm (fun p => match p with (k, d) => do! x <- ser_expr d; ret (skey k, x) end)
        (zip (fun f x => match f with (n, t) => (n, ser t x) end) fs l))) (EObj m) /\
      readable (EObj m) /\
      de_struct interp (fun f => match f with (_, t) => dee t end) fs (Some (expr_map m)) = Some l.
  Proof.
    intros IH P H K N. apply all2_combine in H as [L H]. apply all2_combine in K as [_ K]. rewrite zip_combine.
    apply lall_Forall in P.
    destruct (gives_mapm F (fun p => match p with (k, d) => do! x <- ser_expr d; ret (skey k, x) end)
      (fun p : (str * ty) * tv => match fst p with (n, t) => (n, ser t (snd p)) end)
      (fun p q => fst q = skey (fst (fst p)) /\ dee (snd (fst p)) (SExp (snd q)) = Some (snd p) /\ escape_ok (fst (fst p)) = true /\ readable (snd q)) (combine fs l)) as (qs & G & R).
    - assert (A := combine_In_l _ _ l (Forall_and2 _ _ _ IH P)). rewrite Forall_forall in *. intros [[n t] x] Hp. destruct (A _ Hp) as [A1 A2]. destruct (K _ Hp) as [K1 K2].
      destruct (A1 x A2 (H _ Hp) K2) as (v & G & D & RD & _). exists (skey n, v). split; [|split; [reflexivity|]; now split; [|split]].
      cbn [fst snd]. eapply gives_bind; [exact G|]. apply gives_ret.
    - assert (E : qs = map (fun q => (key_of (fst q), snd q)) (combine (map Ks (map fst fs)) (map snd qs))).
      { clear -R L. revert l qs L R. induction fs as [|f fs IH]; intros [|x l] qs L R; try discriminate; inversion R as [|? q ? qs' [E _] R']; subst; [reflexivity|].
        cbn. destruct q as [n v]. cbn in *. subst. f_equal. apply (IH l); auto. }
      assert (Lq : length qs = length fs) by (rewrite <- (Forall2_length _ _ _ R), combine_length; lia).
      assert (Nq : NoDup (map fst (combine (map Ks (map fst fs)) (map snd qs)))).
      { rewrite combine_fst by now rewrite !map_length. apply FinFun.Injective_map_NoDup; [now intros s s' [= ->]|exact N]. }
      exists qs. split; [|split].
      + rewrite E. rewrite <- obj_collect by exact Nq. rewrite <- E. now apply gives_fmap.
      + rewrite E. apply obj_readable; [exact Nq|]. clear -R L. revert l qs L R. induction fs as [|f fs IH]; intros [|x l] qs L R; try discriminate; cbn; [constructor|].
        inversion R as [|? q ? qs' [E1 [E2 [E3 E4]]] R']; subst. cbn. constructor; [now split|]. apply (IH l); auto.
      + unfold expr_map. rewrite E. rewrite map_map. cbn [fst snd]. rewrite (map_combine2 (fun k => SKey (key_of k)) SExp).
        rewrite de_struct_map; [|exact N|rewrite !map_length; now symmetry|].
        * apply de_tuple_2; [exact L|]. do 2 apply Forall2_map_r. eapply Forall2_impl; [|exact R]. cbn. intros [[n t] x] q (_ & D & _). exact D.
        * rewrite map_map. apply Forall2_same. intros n. reflexivity.
  Qed.

  Lemma typed_expr t : Pe t.
  Proof.
    induction t as [|w| | | | | |t IH|t IH|ts IH|k t IHk IH|n t IH|n fs IH|vs IH|lb t IH|] using ty_all; intros x P H K.
    - destruct x as [d| | | | | | | | | | |]; try contradiction. eexists. split; [apply gives_ret|]. split; [reflexivity|]. split; [split; exact I|discriminate].
    - destruct x as [|z| | | | | | | | | |]; try contradiction. cbn [has] in H. destruct (int_bounds w z H) as [_ B]. exists (ENum (num_of_Z z)). split; [|split; [|split; [split; [exact K|exact I]|discriminate]]].
      + cbn [ser]. destruct (signed w); cbn [SerModel.ser_expr].
        * rewrite num_of_i64_of_Z. apply gives_ret.
        * rewrite num_of_u64_of_Z by auto. apply gives_ret.
      + cbn [de ask ask_expr]. unfold num_of_Z. destruct (z <? 0)%Z; cbn [visit_number]; now rewrite int_range.
    - destruct x as [| |f| | | | | | | | |]; try contradiction. cbn [TySpec.kept] in K. destruct K as [K1 K2]. destruct (float_read b f K1) as (n & E & R). exists (ENum n). split; [|split; [|split; [|discriminate]]].
      + cbn [ser SerModel.ser_expr]. intros s _. rewrite of_f64_num, E. reflexivity.
      + cbn [de ask ask_expr]. destruct n; cbn in *; now rewrite R.
      + split; [exact (K2 n E)|exact I].
    - destruct x as [| | |ch| | | | | | | |]; try contradiction. eexists. split; [apply gives_ret|]. split; [reflexivity|]. split; [split; [exact K|exact I]|discriminate].
    - destruct x as [| | | |s| | | | | | |]; try contradiction. eexists. split; [apply gives_ret|]. split; [reflexivity|]. split; [split; [exact K|exact I]|discriminate].
    - destruct x; try contradiction. eexists. split; [apply gives_ret|]. split; [reflexivity|]. split; [split; exact I|exact (fun _ => I)].
    - destruct x; try contradiction. eexists. split; [apply gives_ret|]. split; [reflexivity|]. split; [split; exact I|exact (fun _ => I)].
    - destruct x as [| | | | | | |x| | | |]; try contradiction.
      + eexists. split; [apply gives_ret|]. split; [reflexivity|]. split; [split; exact I|exact (fun _ => I)].
      + destruct K as [K KN]. destruct (IH x P H K) as (v & G & D & RD & N). exists v. split; [exact G|]. split; [|split; [exact RD|intros E; now apply N]].
        cbn [de ask ask_expr]. destruct v; try (now rewrite D). destruct (KN (N eq_refl)).
    - destruct x as [| | | | | | | |l| | |]; try contradiction. cbn [has TySpec.kept] in *. apply lall_Forall in H, K. cbn [ser SerModel.ser_expr].
      destruct (gives_mapm F ser_expr (ser t) (fun x v => dee t (SExp v) = Some x /\ readable v) l) as (ys & G & R).
      + rewrite Forall_forall in *. intros x Hx. destruct (IH x P (H x Hx) (K x Hx)) as (v & G & D & RD & _). eauto.
      + exists (EArr ys). split; [now apply gives_fmap|]. split; [|split; [|discriminate]].
        * cbn [de ask ask_expr expr_seq]. rewrite (de_all_2 _ _ l); [reflexivity|]. clear -R. induction R as [|? ? ? ? [? ?]]; cbn; constructor; auto.
        * apply arr_readable. eapply Forall2_Forall_r; [|exact R]. cbn. tauto.
    - destruct x as [| | | | | | | |l| | |]; try contradiction. cbn [has TySpec.kept proper] in *. destruct (tuple_expr ts l IH P H K) as (ys & G & D & RD).
      exists (EArr ys). split; [now apply gives_fmap|]. split; [|split; [exact RD|discriminate]]. cbn [de ask ask_expr expr_seq]. rewrite D. reflexivity.
    - destruct x as [| | | | | | | | |l| |]; try contradiction. cbn [has TySpec.kept proper] in *. destruct H as [H N]. destruct P as [Pk P]. apply lall_Forall in H, K. cbn [ser SerModel.ser_expr].
      assert (A : exists qs, gives (mapm (fun p => match p with (k, d) => do! k <- ser_key u nested k; do! x <- ser_expr d; ret (k, x) end)
          (map (fun p => (ser k (fst p), ser t (snd p))) l)) (map (fun q => (key_of (fst q), snd q)) qs) /\
        Forall2 (fun p q => dee k (SKey (key_of (fst q))) = Some (fst p) /\ dee t (SExp (snd q)) = Some (snd p) /\ code_ok (fst q) /\ readable (snd q)) l qs).
      { clear N. induction l as [|[y x] l IHl].
        - exists []. split; [apply gives_ret|constructor].
        - inversion H as [|? ? [H1 H2] H3]; subst. inversion K as [|? ? [K1 K2] K3]; subst. cbn [fst snd] in *.
          destruct (IHl H3 K3) as (qs & G & R). destruct (key_text k y Pk H1 K1) as (q & G1 & O1 & D1). destruct (IH x P H2 K2) as (v & G2 & D2 & R2 & _).
          exists ((q, v) :: qs). split; [|constructor; [now split; [|split; [|split]]|exact R]]. cbn [map mapm fst snd].
          eapply gives_bind; [eapply gives_bind; [exact G1|]; eapply gives_bind; [exact G2|]; apply gives_ret|]. eapply gives_bind; [exact G|]. apply gives_ret. }
      destruct A as (qs & G & R).
      assert (Nq : NoDup (map fst qs)).
      { apply (nodup_image (fun q => dee k (SKey (key_of q))) (map fst l)); [|exact N]. clear -R. induction R as [|p q l qs [R1 R2] _ IH]; cbn; constructor; auto. }
      exists (EObj (map (fun q => (key_of (fst q), snd q)) qs)). split; [|split; [|split; [|discriminate]]].
      + rewrite <- obj_collect by exact Nq. now apply gives_fmap.
      + cbn [de ask ask_expr]. unfold expr_map. rewrite map_map. cbn [fst snd]. rewrite (de_all_2 _ _ l).
        * cbn [option_map]. rewrite from_iter_fresh; [reflexivity|]. apply nodup_differ; [exact key_eqb_eq|exact N].
        * clear -R. induction R as [|p q l qs (R1 & R2 & _) _ IH]; cbn; constructor; auto. cbn. rewrite R1, R2. now destruct p.
      + apply obj_readable; [exact Nq|]. eapply Forall2_Forall_r; [|exact R]. cbn. tauto.
    - destruct K as [_ K]. destruct P as (_ & _ & P). destruct (IH x P H K) as (v & G & D & RD & N). exists v. split; [exact G|]. split; [exact D|]. split; [exact RD|exact N].
    - destruct x as [| | | | | | | |l| | |]; try contradiction. cbn [has TySpec.kept proper] in *. destruct P as (P1 & P2 & N & P).
      destruct (fields_expr fs l IH P H K N) as (m & G & RD & D). cbn [ser SerModel.ser_expr].
      exists (EObj m). split; [|split; [|split; [exact RD|discriminate]]].
      + unfold expr_struct. destruct (seqb n expr_marker) eqn:E; [apply seqb_eq in E; contradiction|]. exact G.
      + cbn [de ask ask_expr]. rewrite D. reflexivity.
    - destruct x as [| | | | | | | | | |i l|]; try contradiction. cbn [has TySpec.kept proper ser] in *. destruct P as [N P]. unfold at_index in *. rewrite pick_nth in H, K. rewrite pick_nth.
      destruct (nth_error vs i) as [[n s]|] eqn:E; [|contradiction]. assert (IHs := Forall_nth _ _ _ _ IH E). apply lall_Forall in P. assert (Ps := Forall_nth _ _ _ _ P E). cbn in IHs, Ps.
      destruct s as [|t|ts|fs].
      + subst l. exists (EStr n). split; [apply gives_ret|]. split; [|split; [split; [exact K|exact I]|discriminate]]. cbn [de ask ask_expr]. unfold variant_ref, field_ref. cbn [ask ask_text].
        rewrite (nodup_nth_name _ _ _ _ N E). rewrite pick_nth, E. reflexivity.
      + destruct l as [|x [|]]; try contradiction. destruct K as [K1 K2]. destruct (IHs x Ps H K2) as (v & G & D & RD & _). exists (EObj [(KIdent n, v)]). split; [|split; [|split; [|discriminate]]].
        * cbn [SerModel.ser_expr]. unfold ident_new. rewrite ident_try_new_ident by apply K1. eapply gives_bind; [apply gives_ret|]. eapply gives_bind; [exact G|]. apply gives_ret.
        * cbn [de ask ask_expr]. unfold variant_ref, field_ref. cbn [ask ask_key key_any]. rewrite (nodup_nth_name _ _ _ _ N E). rewrite pick_nth, E. cbn [variant_src]. rewrite D. reflexivity.
        * destruct RD as [RD RS]. split; [|cbn; now split]. cbn. split; [split; [split; [exact K1|exact RD]|exact I]|]. split; [|exact I]. constructor; constructor.
      + destruct K as [K1 K2]. destruct (tuple_expr ts l IHs Ps H K2) as (ys & G & D & RD). exists (EObj [(skey n, EArr ys)]). split; [|split; [|split; [|discriminate]]].
        * cbn [SerModel.ser_expr]. eapply gives_bind; [exact G|]. apply gives_ret.
        * cbn [de ask ask_expr]. unfold variant_ref, field_ref. cbn [ask ask_key key_any skey expr_any]. rewrite (nodup_nth_name _ _ _ _ N E). rewrite pick_nth, E. cbn [ask_variant ask_expr expr_seq]. rewrite D. reflexivity.
        * apply (obj_readable [(Ks n, EArr ys)]); cbn; [constructor; [tauto|constructor]|]. constructor; [|constructor]. split; [exact K1|exact RD].
      + destruct K as [K1 K2]. destruct Ps as [Ns Ps]. destruct (fields_expr fs l IHs Ps H K2 Ns) as (m & G & RD & D). exists (EObj [(skey n, EObj m)]). split; [|split; [|split; [|discriminate]]].
        * cbn [SerModel.ser_expr]. intros s Hs. specialize (G s Hs). unfold fmap, bind in G |- *. destruct (mapm _ _ s) as [[y| | |] s']; inversion G; subst. reflexivity.
        * cbn [de ask ask_expr]. unfold variant_ref, field_ref. cbn [ask ask_key key_any skey expr_any]. rewrite (nodup_nth_name _ _ _ _ N E). rewrite pick_nth, E. cbn [ask_variant ask_expr]. rewrite D. reflexivity.
        * apply (obj_readable [(Ks n, EObj m)]); cbn [map fst snd]; [constructor; [tauto|constructor]|]. constructor; [|constructor]. split; [exact K1|exact RD].
    - destruct (IH x P H K) as (v & G & D & RD & N). exists v. split; [exact G|]. split; [exact D|]. split; [exact RD|exact N].
    - destruct x as [| | | | | | | | | | |v]; try contradiction. cbn [has TySpec.kept] in *. destruct K as [K1 K2]. exists (expr_of_value v). assert (E := de_value_same b v H K1).
      split; [intros s _; cbn [ser]; now rewrite ser_expr_value, E|]. split; [cbn [de de_hcl_value]; rewrite de_any_value by exact H; now rewrite E|].
      split; [split; [now apply written_readable|apply FmtValueProofs.value_strict]|]. destruct v; try discriminate. intros _. exact I.
  Qed.
End Expr.
