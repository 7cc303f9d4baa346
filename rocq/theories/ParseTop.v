(** * The parser as a whole: soundness, spans of decor

    Consequences of ParseSoundRec for the entry points: what a returned tree is a parse of, where
    errors are reported, that every recorded span is the span of trivia of the input. *)
From Coq Require Import NArith ZArith Arith Bool String List Lia.
From Verif Require Import Res Str Dec NumberModel PrimModel EAst ParseBase ParseModel Grammar ParseLemmas ParseSound ParseSoundRec PrattSpec PrattProofs.
Import ListNotations.
Open Scope N_scope.

(** The text [t] is found in [I] at byte offset [o]. *)
Definition at_ (I : str) (o : N) (t : str) : Prop := exists pre post, I = pre ++ t ++ post /\ blen pre = o.
Lemma at_app I o a b : at_ I o (a ++ b) <-> at_ I o a /\ at_ I (o + blen a) b.
Proof.
  split.
  - intros (pre & post & -> & <-). split.
    + exists pre, (b ++ post). now rewrite <- app_assoc.
    + exists (pre ++ a), post. rewrite blen_app. split; [now rewrite !app_assoc|reflexivity].
  - intros [(pre & post & E & Eo) (pre2 & post2 & E2 & Eo2)].
    assert (X : pre2 = pre ++ a /\ post = b ++ post2).
    { rewrite <- Eo, <- blen_app in Eo2. rewrite E, app_assoc in E2. clear - E2 Eo2. revert Eo2 E2.
      generalize (pre ++ a) as x. intros x Eo2 E2. symmetry in E2.
      assert (Y : forall x y r s, y ++ s = x ++ r -> blen y = blen x -> y = x /\ r = s).
      { clear. induction x as [|c x IH]; intros [|d y] r s E L; cbn in *; auto.
        - pose proof (clen_pos d). lia.
        - pose proof (clen_pos c). lia.
        - injection E as -> E. destruct (IH y r s E ltac:(lia)). subst. auto. }
      destruct (Y x pre2 post (b ++ post2) E2 Eo2). auto. }
    destruct X as [-> ->]. exists pre, post2. rewrite E, !app_assoc. auto.
Qed.
Lemma take_bytes_app t r : take_bytes (blen t) (t ++ r) = Some t.
Proof.
  induction t as [|c t IH]; [destruct r; reflexivity|]. cbn [blen app take_bytes].
  pose proof (clen_pos c). replace (clen c + blen t =? 0) with false by (symmetry; apply N.eqb_neq; lia).
  replace (clen c <=? clen c + blen t) with true by (symmetry; apply N.leb_le; lia).
  replace (clen c + blen t - clen c) with (blen t) by lia. now rewrite IH.
Qed.
Lemma skip_bytes_app t r : skip_bytes (blen t) (t ++ r) = Some r.
Proof.
  induction t as [|c t IH]; [destruct r; reflexivity|]. cbn [blen app skip_bytes].
  pose proof (clen_pos c). replace (clen c + blen t =? 0) with false by (symmetry; apply N.eqb_neq; lia).
  replace (clen c <=? clen c + blen t) with true by (symmetry; apply N.leb_le; lia).
  replace (clen c + blen t - clen c) with (blen t) by lia. exact IH.
Qed.
Lemma at_slice I o t : at_ I o t -> get_slice I o (o + blen t) = Some t.
Proof.
  intros (pre & post & -> & <-). unfold get_slice. replace (_ <=? _) with true by (symmetry; apply N.leb_le; lia).
  rewrite skip_bytes_app. replace (_ - _) with (blen t) by lia. apply take_bytes_app.
Qed.

(** A raw string that is the span of trivia of [I], or empty. *)
Definition good_raw (I : str) (r : raw) : Prop :=
  r = REmpty \/ exists o t, triv t /\ t <> [] /\ at_ I o t /\ r = RSpanned o (o + blen t).
Lemma good_rw I o t : at_ I o t -> triv t -> good_raw I (rw o t).
Proof.
  intros Ha Ht. destruct t as [|c t]; [left; apply rw_nil|]. right. exists o, (c :: t). rewrite rw_ne by discriminate. repeat split; auto. discriminate.
Qed.
Lemma good_raw_ok I r : good_raw I r -> raw_ok I r = true.
Proof. intros [->|(o & t & _ & _ & Ha & ->)]; [reflexivity|]. cbn. now rewrite at_slice. Qed.
Lemma despan_rw I o t : at_ I o t -> raw_despan I (rw o t) = raw_of_str t.
Proof.
  intros Ha. destruct t as [|c t]; [now rewrite rw_nil|]. rewrite rw_ne by discriminate. cbn [raw_despan]. now rewrite at_slice.
Qed.

Section Raws.
  Context (u : unicode) (b : build) (parse_f64 : str -> f64).
  Context (group : xexpr -> list (oper * xexpr) -> option xexpr).
  Context (obj_add : xitem -> list xitem -> list xitem).
  Context (I : str) (ops : bool).
  Notation P := (good_raw I).
  Notation xok e := (Forall P (x_raws ops e)).
  Definition op_ok (p : oper * xexpr) : Prop := Forall P (meta_raws (fst (fst p))) /\ xok (snd p).
  Context (group_ok : forall e l e', group e l = Some e' -> xok e -> Forall op_ok l -> xok e').
  Context (obj_ok : forall i l, Forall P (item_raws ops i) -> Forall P (flat_map (item_raws ops) l) ->
             Forall P (flat_map (item_raws ops) (obj_add i l))).
  Notation gexpr := (gexpr u b parse_f64 group obj_add).
  Notation gdx := (gdx u b parse_f64 group obj_add).
  Notation gpx := (gpx u b parse_f64 group obj_add).
  Notation gargs := (gargs u b parse_f64 group obj_add).
  Notation gmore := (gmore u b parse_f64 group obj_add).
  Notation gitems := (gitems u b parse_f64 group obj_add).
  Notation gitem := (gitem u b parse_f64 group obj_add).
  Notation gtrops := (gtrops u b parse_f64 group obj_add).
  Notation gop := (gop u b parse_f64 group obj_add).
  Notation gops := (gops u b parse_f64 group obj_add).
  Notation gintro := (gintro u b parse_f64 group obj_add).
  Notation gcond := (gcond u b parse_f64 group obj_add).
  Notation gelems := (gelems u b parse_f64 group obj_add).
  Notation gelem := (gelem u b parse_f64 group obj_add).
  Notation gelse := (gelse u b parse_f64 group obj_add).

  (** An expression is good if its raw strings are, whatever decor it gets. *)
  Definition mok (m : meta) : Prop := Forall P (meta_raws m).
  Lemma vis_ok l : Forall P l -> Forall P (vis ops l).
  Proof. intros H. unfold vis. destruct ops; auto. Qed.
  Lemma hid_ok l : Forall P l -> Forall P (hid ops l).
  Proof. intros H. unfold hid. destruct ops; auto. Qed.
  Lemma M_ok o t : mok (M o t).
  Proof. constructor. Qed.
  Lemma no_meta_ok : mok no_meta.
  Proof. constructor. Qed.
  Lemma set_prefix_ok r m : P r -> mok m -> mok (set_prefix r m).
  Proof.
    unfold mok, meta_raws, decor_raws, set_prefix. cbn. rewrite !Forall_app. intros Hr [_ H]. constructor; auto.
  Qed.
  Lemma set_suffix_ok r m : P r -> mok m -> mok (set_suffix r m).
  Proof.
    unfold mok, meta_raws, decor_raws, set_suffix. cbn. rewrite !Forall_app. intros Hr [H _]. split; [exact H|constructor; auto].
  Qed.
  Lemma set_span_ok s m : mok m -> mok (set_span s m).
  Proof. auto. Qed.
  Lemma around_ok oa a oz z m : at_ I oa a -> triv a -> at_ I oz z -> triv z -> mok m -> mok (around oa a oz z m).
  Proof. intros. apply set_suffix_ok; [now apply good_rw|]. apply set_prefix_ok; [now apply good_rw|auto]. Qed.
  Lemma x_upd_ok f e : (forall m, mok m -> mok (f m)) -> xok e -> xok (x_upd f e).
  Proof.
    intros Hf. unfold mok in Hf. destruct e; cbn [x_upd x_raws]; rewrite ?Forall_app; intros H; decompose [and] H; repeat split; auto;
    unfold vis in *; destruct ops; auto; rewrite ?Forall_app in *; decompose [and] H; auto;
    repeat match goal with H : _ /\ _ |- _ => destruct H end; repeat split; auto.
  Qed.
  Lemma xok_did f i : (forall m, mok m -> mok (f m)) -> Forall P (did_raws i) -> Forall P (did_raws (did_upd f i)).
  Proof. intros Hf. apply Hf. Qed.
  Lemma key_upd_ok f k : (forall m, mok m -> mok (f m)) -> Forall P (key_raws ops k) -> Forall P (key_raws ops (key_upd f k)).
  Proof.
    intros Hf. destruct k as [i|e]; cbn [key_upd key_raws]; [|now apply x_upd_ok].
    unfold vis. destruct ops; [auto|]. apply Hf.
  Qed.
  Lemma cond_upd_ok f c : (forall m, mok m -> mok (f m)) -> Forall P (cond_raws ops c) -> Forall P (cond_raws ops (cond_upd f c)).
  Proof.
    intros Hf. destruct c as [m e]. cbn [cond_upd cond_raws]. rewrite !Forall_app. intros [H1 H2]. split; [|exact H2].
    unfold vis in *. destruct ops; [auto|]. now apply Hf.
  Qed.
  Lemma key_of_expr_ok e : xok e -> Forall P (key_raws ops (key_of_expr e)).
  Proof. intros H. destruct e; try exact H. cbn. apply vis_ok. constructor. Qed.
  Lemma fold_obj_ok its : forall l, Forall P (flat_map (item_raws ops) its) -> Forall P (flat_map (item_raws ops) l) ->
    Forall P (flat_map (item_raws ops) (fold_left (fun acc i => obj_add i acc) its l)).
  Proof.
    induction its as [|i its IH]; intros l Hi Hl; cbn [fold_left flat_map] in *; [exact Hl|].
    apply Forall_app in Hi. destruct Hi as [Hi1 Hi2]. apply IH; [exact Hi2|]. now apply obj_ok.
  Qed.
  Lemma gdid_ok o t i : gdid u o t i -> at_ I o t -> Forall P (did_raws i).
  Proof.
    intros (a & x & z & -> & Ha & _ & Hz & ->) H. apply at_app in H. destruct H as [H1 H]. apply at_app in H. destruct H as [H2 H3].
    apply around_ok; auto. apply M_ok.
  Qed.
  Lemma gsid_ok o t i : gsid u o t i -> at_ I o t -> Forall P (did_raws i).
  Proof.
    intros (x & z & -> & _ & Hz & ->) H. apply at_app in H. destruct H as [H1 H]. apply set_suffix_ok; [now apply good_rw|apply M_ok].
  Qed.
  Lemma gns_ok o t l : rep (gns u) o t l -> at_ I o t -> Forall P (flat_map did_raws l).
  Proof.
    induction 1 as [o|o t1 t2 i l (t' & -> & Hi) _ IH]; intros H; [constructor|]. cbn [flat_map].
    apply at_app in H. destruct H as [H1 H2]. apply at_app in H1. destruct H1 as [_ H1]. apply Forall_app. split; [|now apply IH].
    eapply gdid_ok; [exact Hi|exact H1].
  Qed.
  Lemma gvars_ok o t k v : gvars u o t k v -> at_ I o t -> Forall P (opt_raws did_raws k) /\ Forall P (did_raws v).
  Proof.
    intros [[-> H]|(t1 & t2 & i & -> & -> & H1 & H2)] Ha.
    - split; [constructor|]. eapply gdid_ok; eauto.
    - apply at_app in Ha. destruct Ha as [Ha1 Ha]. apply at_app in Ha. destruct Ha as [_ Ha].
      split; eapply gdid_ok; eauto.
  Qed.
  Lemma gend_ok kw o t a z s : gend kw o t a z s -> at_ I o t -> P a /\ P z.
  Proof.
    intros (ta & tz & -> & Ha & Hz & -> & ->) H.
    repeat (apply at_app in H; destruct H as [? H]). split; apply good_rw; auto.
  Qed.
  Lemma gitem_end_triv z tm e : gitem_end z tm e -> triv z.
  Proof. intros [H _]. exact H. Qed.
  Lemma space_ok t : forallb is_space t = true -> triv t.
  Proof. apply space_triv. Qed.
  Lemma removelast_raws (i : did) ns name : i :: ns = removelast (i :: ns) ++ [name] ->
    Forall P (did_raws i) -> Forall P (flat_map did_raws ns) ->
    Forall P (flat_map did_raws (removelast (i :: ns))) /\ Forall P (did_raws name).
  Proof.
    intros E Hi Hn. assert (H : Forall P (flat_map did_raws (i :: ns))) by (cbn [flat_map]; now apply Forall_app).
    rewrite E, flat_map_app in H. apply Forall_app in H. destruct H as [H1 H2]. cbn in H2. rewrite app_nil_r in H2. auto.
  Qed.

  Ltac ats := repeat match goal with
    | H : at_ _ _ (_ ++ _) |- _ => apply at_app in H; destruct H
    | H : _ /\ _ |- _ => destruct H
    end.
  Lemma blen_assign a : blen (assign_str a) = 1. Proof. now destruct a. Qed.
  Lemma blen_unop a : blen (unop_str a) = 1. Proof. now destruct a. Qed.
  Ltac nums :=
    rewrite ?blen_assign, ?blen_unop in *;
    repeat match goal with
    | H : context [blen (lit ?s)] |- _ => let v := eval vm_compute in (blen (lit s)) in change (blen (lit s)) with v in H
    | H : context [blen [?c]] |- _ =>
        let v := eval vm_compute in (blen [c]) in lazymatch v with 1%N => idtac end; change (blen [c]) with v in H
    end.
  Ltac ok :=
    lazymatch goal with
    | |- Forall _ (_ ++ _) => apply Forall_app; split; ok
    | |- Forall _ (vis _ _) => apply vis_ok; ok
    | |- Forall _ (hid _ _) => apply hid_ok; ok
    | |- Forall _ [] => constructor
    | |- Forall _ (_ :: _) => constructor; ok
    | |- Forall _ (x_raws _ (x_upd _ _)) => apply x_upd_ok; [intros ? ?|]; ok
    | |- Forall _ (key_raws _ (key_upd _ _)) => apply key_upd_ok; [intros ? ?|]; ok
    | |- Forall _ (meta_raws ?m) => fold (mok m); ok
    | |- mok (set_prefix _ _) => apply set_prefix_ok; ok
    | |- mok (set_suffix _ _) => apply set_suffix_ok; ok
    | |- mok (set_span _ _) => apply set_span_ok; ok
    | |- mok (around _ _ _ _ _) => apply around_ok; ok
    | |- mok (M _ _) => apply M_ok
    | |- mok no_meta => apply no_meta_ok
    | |- good_raw _ (rw _ _) => apply good_rw; ok
    | |- _ /\ _ => split; ok
    | |- Forall _ (did_raws (Did ?m _)) => change (mok m); ok
    | |- op_ok _ => unfold op_ok; cbn [fst snd]; ok
    | |- _ => first [ assumption | now auto
      | progress cbn [x_raws flat_map opt_raws cond_raws item_raws key_raws trop_raws op_raws elem_raws else_raws tpl_raws did_raws i_meta]; ok
      | idtac ]
    end.
  Ltac fwd := repeat match goal with
    | H : at_ I ?o ?t -> _, H2 : at_ I ?o ?t |- _ => specialize (H H2)
    | H : _ /\ _ |- _ => destruct H
    end.
  Lemma all_ok :
    (forall o t e, gexpr o t e -> at_ I o t -> xok e) /\ (forall o t e, gdx o t e -> at_ I o t -> xok e) /\
    (forall o t e, gpx o t e -> at_ I o t -> xok e) /\
    (forall o t l, gargs o t l -> at_ I o t -> Forall P (flat_map (x_raws ops) l)) /\
    (forall o t l, gmore o t l -> at_ I o t -> Forall P (flat_map (x_raws ops) l)) /\
    (forall o t l, gitems o t l -> at_ I o t -> Forall P (flat_map (item_raws ops) l)) /\
    (forall o t i, gitem o t i -> at_ I o t -> Forall P (item_raws ops i)) /\
    (forall o t l, gtrops o t l -> at_ I o t -> Forall P (flat_map (trop_raws ops) l)) /\
    (forall o t i, gop o t i -> at_ I o t -> Forall P (op_raws ops i)) /\
    (forall o t l, gops o t l -> at_ I o t -> Forall op_ok l) /\
    (forall o t im kv vv c, gintro o t im kv vv c -> at_ I o t ->
       mok im /\ Forall P (opt_raws did_raws kv) /\ Forall P (did_raws vv) /\ xok c) /\
    (forall o t c, gcond o t c -> at_ I o t -> Forall P (opt_raws (cond_raws ops) c)) /\
    (forall o t l, gelems o t l -> at_ I o t -> Forall P (flat_map (elem_raws ops) l)) /\
    (forall o t e, gelem o t e -> at_ I o t -> Forall P (elem_raws ops e)) /\
    (forall o t e, gelse o t e -> at_ I o t -> Forall P (opt_raws (else_raws ops) e)).
  Proof.
    apply gexpr_all; intros; subst; ats; nums; fwd.
    all: try solve [ok].
    - unfold keyword. apply x_upd_ok; [intros ? ?; ok|]. destruct (seqb _ _); [ok|].
      destruct (seqb _ _); [ok|]. destruct (seqb _ _); ok.
    - cbn [x_raws]. ok. apply fold_obj_ok; [ok|constructor].
    - ok. apply space_ok. ok.
    - destruct (removelast_raws i ns name) as [? ?]; [assumption|eapply gsid_ok; eassumption|eapply gns_ok; eassumption|]. ok.
    - ok. eapply group_ok; eassumption.
    - cbn [opt_raws] in *. ok. cbn [opt_raws]. apply cond_upd_ok; [intros ? ?; ok|assumption].
    - match goal with |- Forall _ (item_raws _ (XItem ?k _ ?v _)) => change (Forall P (key_raws ops k ++ x_raws ops v)) end.
      ok; [apply key_of_expr_ok; ok|eapply gitem_end_triv; eassumption].
    - match goal with H : gvars _ _ _ _ _ |- _ => pose proof (gvars_ok _ _ _ _ H) end. fwd. ok.
    - match goal with H : gend _ _ _ _ _ _ |- _ => pose proof (gend_ok _ _ _ _ _ _ H) end. fwd. ok.
    - match goal with H : gvars _ _ _ _ _ |- _ => pose proof (gvars_ok _ _ _ _ H) end. match goal with H : gend _ _ _ _ _ _ |- _ => pose proof (gend_ok _ _ _ _ _ _ H) end. fwd. ok.
    - match goal with H : gend _ _ _ _ _ _ |- _ => pose proof (gend_ok _ _ _ _ _ _ H) end. fwd. ok.
  Qed.

  Lemma struct_upd_ok f x : (forall m, mok m -> mok (f m)) -> Forall P (struct_raws ops x) -> Forall P (struct_raws ops (struct_upd f x)).
  Proof.
    intros Hf. destruct x; cbn [struct_upd struct_raws]; rewrite !Forall_app; intros [H1 H2]; (split; [|exact H2]);
    unfold vis in *; destruct ops; auto; rewrite Forall_app in *; (split; [apply Hf; apply H1|apply H1]).
  Qed.
  Lemma glabels_ok o t l : rep (glabel u) o t l -> at_ I o t -> Forall P (flat_map (label_raws ops) l).
  Proof.
    induction 1 as [o|o t1 t2 i l H _ IH]; intros Ha; [constructor|]. cbn [flat_map]. ats.
    apply Forall_app. split; [|now apply IH]. destruct H as (x & z & -> & Hz & H). ats.
    destruct H as [[_ ->]|(_ & s & ->)]; cbn [label_raws]; apply vis_ok; [change (mok (set_suffix (rw (o + blen x) z) (M o x)))|]; ok.
  Qed.
  Notation gstruct := (gstruct u b parse_f64 group obj_add).
  Notation gblock := (gblock u b parse_f64 group obj_add).
  Notation gbody := (gbody u b parse_f64 group obj_add).
  Notation gstructs := (gstructs u b parse_f64 group obj_add).
  Lemma struct_raws_attr m k v : struct_raws ops (XAttr m k v) = vis ops (meta_raws m ++ did_raws k) ++ x_raws ops v.
  Proof. reflexivity. Qed.
  Lemma struct_raws_block m i l bd : struct_raws ops (XBlock m i l bd) =
    vis ops (meta_raws m ++ did_raws i) ++ flat_map (label_raws ops) l ++ body_raws ops bd.
  Proof. reflexivity. Qed.
  Lemma body_raws_eq m l o n : body_raws ops (XBody m l o n) = vis ops (meta_raws m) ++ flat_map (struct_raws ops) l.
  Proof. reflexivity. Qed.
  Lemma all_struct_ok :
    (forall o t x, gstruct o t x -> at_ I o t -> Forall P (struct_raws ops x)) /\
    (forall o t x, gblock o t x -> at_ I o t -> Forall P (body_raws ops x)) /\
    (forall o t x, gbody o t x -> at_ I o t -> Forall P (body_raws ops x)) /\
    (forall ks o t l om, gstructs ks o t l om -> at_ I o t -> Forall P (flat_map (struct_raws ops) l)).
  Proof.
    apply gstruct_all; intros; subst; ats; nums; fwd; rewrite ?struct_raws_attr, ?struct_raws_block, ?body_raws_eq in *.
    - pose proof (gsid_ok _ _ _ H0). destruct all_ok as (_ & _ & Hp & _). pose proof (Hp _ _ _ H1). fwd. ok.
    - pose proof (gsid_ok _ _ _ H0). pose proof (glabels_ok _ _ _ H1). fwd. ok.
    - ok.
    - cbn [flat_map]. ok. apply struct_upd_ok; [intros ? ?|]; ok.
    - rewrite Forall_app in *. destruct H3. split; [|assumption]. unfold vis in *. destruct ops; [assumption|]. ok.
    - ok.
    - constructor.
    - cbn [flat_map]. ok. apply struct_upd_ok; [intros ? ?|]; ok.
    - cbn [flat_map]. ok. apply struct_upd_ok; [intros ? ?|]; ok.
  Qed.
End Raws.

(** ** The real policies keep good raw strings *)
Section Policies.
  Context (I : str) (ops : bool).
  Notation P := (good_raw I).
  Notation xok e := (Forall P (x_raws ops e)).
  Lemma tree_ok (t : tree) : xok (head t) -> Forall (op_ok I ops) (tail t) -> xok (tree_expr t).
  Proof.
    induction t as [a|l IHl o r IHr]; cbn [head tail tree_expr]; intros Hh Ht; [exact Hh|].
    apply Forall_app in Ht. destruct Ht as [H1 H2]. inversion H2 as [|? ? [H3 H4] H5]; subst. cbn [fst snd] in *.
    unfold infix_expr. cbn [x_raws]. rewrite !Forall_app. repeat split; auto.
    - unfold vis. destruct ops; [constructor|]. destruct (m_span (x_meta (tree_expr l))), (m_span (x_meta (tree_expr r))); constructor.
    - unfold hid. destruct ops; [assumption|constructor].
  Qed.
  Lemma pratt_ok e l e' : pratt_group e l = Some e' -> xok e -> Forall (op_ok I ops) l -> xok e'.
  Proof.
    intros E He Hl. destruct (pratt_group_spec e l) as (t & rest & E2 & _ & Hh & Hl2 & _).
    rewrite E in E2. injection E2 as ->. apply tree_ok; [now rewrite Hh|]. rewrite Hl2, Forall_app in Hl. apply Hl.
  Qed.
  Lemma item_raws_eq k a v t : item_raws ops (XItem k a v t) = key_raws ops k ++ x_raws ops v.
  Proof. reflexivity. Qed.
  Lemma insert_ok i l : Forall P (item_raws ops i) -> Forall P (flat_map (item_raws ops) l) ->
             Forall P (flat_map (item_raws ops) (items_insert i l)).
  Proof.
    intros Hi. induction l as [|j l IH]; cbn [items_insert flat_map]; intros Hl.
    { rewrite app_nil_r. exact Hi. }
    apply Forall_app in Hl. destruct Hl as [Hj Hl]. destruct (key_eqb (item_key j) (item_key i)).
    - destruct i as [k a v t], j as [k' a' v' t']. cbn [item_key flat_map]. rewrite !item_raws_eq, !Forall_app in *. tauto.
    - cbn [flat_map]. apply Forall_app. auto.
  Qed.
End Policies.

(** ** The entry points *)
Section Top.
  Context (u : unicode) (b : build) (parse_f64 : str -> f64).
  Context (group : xexpr -> list (oper * xexpr) -> option xexpr).
  Context (obj_add : xitem -> list xitem -> list xitem).
  Context (group_total : forall e ops, group e ops <> None).
  Notation bad := (bad b parse_f64).
  Lemma parse_sat {A} (p : parser A) (I : str) (Q : str -> A -> Prop) :
    sat bad (List.length I) 0 p Q ->
    match parse p I with
    | Parsed a => Q I a
    | ParseError k => exists pre post, I = pre ++ post /\ blen pre = k
    | ParsePanic => bad I
    | ParseFuel => False
    end.
  Proof.
    intros H. specialize (H I (le_n _)). unfold parse, bind. destruct (p (0, I)) as [a s'|c s'| |]; auto.
    - destruct H as (t & E & Eo & HQ). destruct s' as [o r]. cbn [fst snd] in *. unfold eof, ret. cbn [snd].
      destruct r as [|c r]; [rewrite app_nil_r in E; now subst|]. cbn [fst]. exists t, (c :: r). split; [exact E|]. lia.
    - destruct H as (t & E & Eo). exists t, (snd s'). split; [exact E|]. lia.
  Qed.
  Lemma parse_body_spec (I : str) :
    match parse_body_raw u b parse_f64 group obj_add I with
    | Parsed a => gbody u b parse_f64 group obj_add 0 I a
    | ParseError k => exists pre post, I = pre ++ post /\ blen pre = k
    | ParsePanic => bad I
    | ParseFuel => False
    end.
  Proof.
    apply (parse_sat _ I (gbody u b parse_f64 group obj_add 0)). apply (recs_ok u b parse_f64 group obj_add group_total). lia.
  Qed.
  Lemma parse_expr_spec (I : str) :
    match parse_expr_raw u b parse_f64 group obj_add I with
    | Parsed a => gexpr u b parse_f64 group obj_add 0 I a
    | ParseError k => exists pre post, I = pre ++ post /\ blen pre = k
    | ParsePanic => bad I
    | ParseFuel => False
    end.
  Proof.
    apply (parse_sat _ I (gexpr u b parse_f64 group obj_add 0)). apply (recs_ok u b parse_f64 group obj_add group_total). lia.
  Qed.
  Lemma parse_tpl_spec (I : str) :
    match parse_tpl_raw u b parse_f64 group obj_add I with
    | Parsed a => exists es, a = XTempl es None /\ gelems u b parse_f64 group obj_add 0 I es
    | ParseError k => exists pre post, I = pre ++ post /\ blen pre = k
    | ParsePanic => bad I
    | ParseFuel => False
    end.
  Proof.
    apply (parse_sat _ I (fun t a => exists es, a = XTempl es None /\ gelems u b parse_f64 group obj_add 0 t es)).
    apply (sat_pmap bad (bad_app b parse_f64)). cbv beta.
    eapply sat_imp; [apply (recs_ok u b parse_f64 group obj_add group_total); apply le_n|lia|]. eauto.
  Qed.
End Top.
