(** * Printing what was parsed: proofs *)
From Coq Require Import NArith ZArith Arith Bool String List Lia.
From Verif Require Import Res Str Dec NumberModel PrimModel DedentModel EAst EncModel ParseBase ParseModel Grammar.
From Verif Require Import ParseLemmas ParseSound ParseSoundRec ParseTop PrattSpec PrattProofs LossSpec LossBase.
Import ListNotations.
Open Scope N_scope.

(** What the chain parser returns, with as many operators as it was given to start with. *)
Lemma pratt_keeps n : forall rbp (tl : tree) nbp ops r rest, pratt n rbp (tree_expr tl) nbp ops = Some (r, rest) ->
  exists t, r = tree_expr t /\ head t = head tl /\ tail tl ++ ops = tail t ++ rest /\ (List.length (tail tl) <= List.length (tail t))%nat.
Proof.
  induction n as [|n IH]; intros rbp tl nbp ops r rest H; [discriminate|]. cbn [pratt] in H. destruct ops as [|[o e] ops].
  { injection H as <- <-. exists tl. auto. }
  destruct (_ && _); [|injection H as <- <-; exists tl; auto].
  destruct (pratt n (rhs_rbp (snd o)) e None ops) as [[rhs rest']|] eqn:E; [|discriminate].
  apply (IH _ (Leaf e)) in E. destruct E as (tr & -> & Hh & Ht & _). cbn [head tail app] in Hh, Ht.
  apply (IH _ (Node tl o tr)) in H. destruct H as (t & -> & Hh2 & Ht2 & Hl). exists t. cbn [head tail] in *.
  rewrite app_length in Hl. cbn [List.length] in Hl. repeat split; auto; [|lia].
  rewrite <- Ht2, Hh, Ht, <- app_assoc. reflexivity.
Qed.
Lemma pratt_group_keeps e ops r : pratt_group e ops = Some r ->
  exists t rest, r = tree_expr t /\ head t = e /\ ops = tail t ++ rest /\ (ops <> [] -> tail t <> []).
Proof.
  unfold pratt_group. destruct (pratt _ 0 e None ops) as [[x rest]|] eqn:E; [|discriminate]. cbn. intros [= ->].
  destruct ops as [|[o e1] ops].
  - cbn in E. injection E as <- <-. exists (Leaf e), []. cbn. repeat split; auto.
  - cbn [List.length] in E. remember (S (List.length ops)) as n. cbn [pratt] in E. pose proof (lbp_ge (snd o)) as Hl. unfold below in E.
    assert (Hz : (0 <? lbp (snd o))%nat = true) by (apply Nat.ltb_lt; lia). rewrite Hz in E. cbn [andb] in E.
    destruct (pratt n (rhs_rbp (snd o)) e1 None ops) as [[rhs rest']|] eqn:E1; [|discriminate].
    apply (pratt_keeps _ _ (Leaf e1)) in E1. destruct E1 as (tr & -> & Hh & Ht & _).
    apply (pratt_keeps _ _ (Node (Leaf e) o tr)) in E. destruct E as (t & -> & Hh2 & Ht2 & Hl2). cbn [head tail app] in *.
    exists t, rest. repeat split; auto.
    + rewrite <- Ht2, Hh, Ht. reflexivity.
    + intros _ X. rewrite X in Hl2. cbn in Hl2. lia.
Qed.

Section Loss.
  Context (u : unicode) (b : build) (parse_f64 : str -> f64) (show_f64 : f64 -> str) (I : str).
  Context (no_cr : ~ In 13 I).
  Notation gexpr := (gexpr u b parse_f64 pratt_group items_insert).
  Notation gdx := (gdx u b parse_f64 pratt_group items_insert).
  Notation gpx := (gpx u b parse_f64 pratt_group items_insert).
  Notation gargs := (gargs u b parse_f64 pratt_group items_insert).
  Notation gmore := (gmore u b parse_f64 pratt_group items_insert).
  Notation gitems := (gitems u b parse_f64 pratt_group items_insert).
  Notation gitem := (gitem u b parse_f64 pratt_group items_insert).
  Notation gtrops := (gtrops u b parse_f64 pratt_group items_insert).
  Notation gop := (gop u b parse_f64 pratt_group items_insert).
  Notation gops := (gops u b parse_f64 pratt_group items_insert).
  Notation gintro := (gintro u b parse_f64 pratt_group items_insert).
  Notation gcond := (gcond u b parse_f64 pratt_group items_insert).
  Notation gelems := (gelems u b parse_f64 pratt_group items_insert).
  Notation gelem := (gelem u b parse_f64 pratt_group items_insert).
  Notation gelse := (gelse u b parse_f64 pratt_group items_insert).
  Notation F := (raw_despan I).
  Notation leave := (fun r : raw => r).
  Notation X := (x_map F leave).
  Notation XM := (meta_map F).
  Notation core := (x_core show_f64).
  Notation LF := (LossSpec.faithful show_f64 I).
  Notation faithful e := (LF (X e)).

  Lemma at_eol o le : at_ I o le -> eol le -> le = [10].
  Proof.
    intros (pre & post & E & _) [->| ->]; [reflexivity|]. exfalso. apply no_cr. rewrite E, !in_app_iff. right. left. now left.
  Qed.

  (** Reading the decor of a node. *)
  Lemma lead_prefix o p m df : at_ I o p -> lead (XM (set_prefix (rw o p) m)) df p.
  Proof. intros H. unfold lead, enc_prefix, meta_map, set_prefix. cbn. rewrite despan_rw by exact H. apply raw_of_str_enc. Qed.
  Lemma trail_suffix o p m df : at_ I o p -> trail (XM (set_suffix (rw o p) m)) df p.
  Proof. intros H. unfold trail, enc_suffix, meta_map, set_suffix. cbn. rewrite despan_rw by exact H. apply raw_of_str_enc. Qed.
  Lemma lead_suffix r p m df : lead (XM m) df p -> lead (XM (set_suffix r m)) df p. Proof. exact (fun H => H). Qed.
  Lemma trail_prefix r p m df : trail (XM m) df p -> trail (XM (set_prefix r m)) df p. Proof. exact (fun H => H). Qed.
  Lemma lead_span r p m df : lead (XM m) df p -> lead (XM (set_span r m)) df p. Proof. exact (fun H => H). Qed.
  Lemma trail_span r p m df : trail (XM m) df p -> trail (XM (set_span r m)) df p. Proof. exact (fun H => H). Qed.
  Lemma lead_M o t df : lead (XM (M o t)) df df. Proof. reflexivity. Qed.
  Lemma trail_M o t df : trail (XM (M o t)) df df. Proof. reflexivity. Qed.
  Lemma lead_no df : lead (XM no_meta) df df. Proof. reflexivity. Qed.
  Lemma trail_no df : trail (XM no_meta) df df. Proof. reflexivity. Qed.
  (** A node without decor, or with an empty suffix. *)
  Definition quiet (m : meta) : Prop := d_prefix (m_decor m) = None /\ (d_suffix (m_decor m) = None \/ d_suffix (m_decor m) = Some REmpty).
  Lemma quiet_lead m : quiet m -> lead (XM m) [] [].
  Proof. intros [H _]. unfold lead, enc_prefix, meta_map, decor_map. cbn. now rewrite H. Qed.
  Lemma quiet_trail m : quiet m -> trail (XM m) [] [].
  Proof. intros [_ [H|H]]; unfold trail, enc_suffix, meta_map, decor_map; cbn; now rewrite H. Qed.
  Ltac dec := lazymatch goal with
    | |- lead (XM (around _ _ _ _ _)) _ _ => unfold around; dec
    | |- trail (XM (around _ _ _ _ _)) _ _ => unfold around; dec
    | |- lead (XM (set_prefix (rw _ _) _)) _ _ => apply lead_prefix; assumption
    | |- lead (XM (set_suffix _ _)) _ _ => apply lead_suffix; dec
    | |- lead (XM (set_span _ _)) _ _ => apply lead_span; dec
    | |- lead (XM (M _ _)) _ _ => apply lead_M
    | |- lead (XM no_meta) _ _ => apply lead_no
    | |- lead (XM _) _ _ => apply quiet_lead; assumption
    | |- trail (XM (set_suffix (rw _ _) _)) _ _ => apply trail_suffix; assumption
    | |- trail (XM (set_prefix _ _)) _ _ => apply trail_prefix; dec
    | |- trail (XM (set_span _ _)) _ _ => apply trail_span; dec
    | |- trail (XM (M _ _)) _ _ => apply trail_M
    | |- trail (XM no_meta) _ _ => apply trail_no
    | |- trail (XM _) _ _ => apply quiet_trail; assumption
    end.

  Lemma core_upd f e : core (X (x_upd f e)) = core (X e). Proof. destruct e; reflexivity. Qed.
  Lemma meta_X e : x_meta (X e) = XM (x_meta e). Proof. destruct e; reflexivity. Qed.
  Lemma meta_upd f e : x_meta (x_upd f e) = f (x_meta e). Proof. destruct e; reflexivity. Qed.
  Lemma span_X m : m_span (XM m) = m_span m. Proof. reflexivity. Qed.
  Lemma faithful_upd f e : (forall m, m_span (f m) = m_span m) -> faithful (x_upd f e) = faithful e.
  Proof. intros H. destruct e; cbn [x_upd x_map LossSpec.faithful meta_map m_span]; unfold ends_at, closes, text_is, written, text_of; rewrite ?span_X, ?H; reflexivity. Qed.
  Lemma span_same sp e : m_span (x_meta e) = Some sp -> x_upd (set_span sp) e = e.
  Proof. unfold set_span. destruct e; cbn [x_meta x_upd]; intros H; destruct m; cbn in *; subst; reflexivity. Qed.
  Lemma text_at o t : at_ I o t -> text_of I (Some (sp_of o t)) = Some t.
  Proof. intros H. unfold text_of, sp_of. now apply at_slice. Qed.
  Lemma written_at o t s : at_ I o t -> written I (Some (sp_of o t)) s = true -> s = t.
  Proof. intros H. unfold written. rewrite text_at by exact H. intros E. apply seqb_eq in E. now symmetry. Qed.

  (** A node is printed as the text it was read from, at least if it passes. *)
  Definition said (o : N) (t : str) (e : xexpr) : Prop :=
    m_span (x_meta e) = Some (sp_of o t) /\ (forall fl, fst (faithful e fl) = true -> quiet (x_meta e)) /\
    prints (faithful e) (core (X e)) t.
  Definition saids (df : str * str) (t : str) (e : xexpr) : Prop := prints (faithful e) (xdec core df (X e)) t.
  Lemma prints_if c (P : Prop) f t : (forall fl, fst (c fl) = true -> P) -> (P -> prints c f t) -> prints c f t.
  Proof. intros H1 H2 fl H. exact (H2 (H1 fl H) fl H). Qed.
  (** With a change of decor. *)
  Lemma said_dec o t e f df p z :
    said o t e -> (forall m, m_span (f m) = m_span m) ->
    (quiet (x_meta e) -> lead (XM (f (x_meta e))) (fst df) p /\ trail (XM (f (x_meta e))) (snd df) z) ->
    saids df (p ++ t ++ z) (x_upd f e).
  Proof.
    intros (Hs & Hq & Hp) Hf Hd. unfold saids, xdec. rewrite meta_X, meta_upd, core_upd, faithful_upd by exact Hf.
    eapply prints_if; [exact Hq|]. intros Q. destruct (Hd Q). now apply prints_deco.
  Qed.
  Lemma said_plain o t e : said o t e -> saids NO t e.
  Proof.
    intros (Hs & Hq & Hp). unfold saids, xdec. rewrite meta_X.
    eapply prints_if; [exact Hq|]. intros Q. eapply prints_eq; [|apply (prints_deco _ _ _ _ [] t []); [dec|dec|exact Hp]]. cbn. apply app_nil_r.
  Qed.

  (** ** Operator chains *)
  Inductive opsaid : N -> str -> list (oper * xexpr) -> Prop :=
  | OSNil o : opsaid o [] []
  | OSCons o p z op t1 t2 e l :
      at_ I o p -> at_ I (o + blen p + blen (binop_str op)) z ->
      said (o + blen p + blen (binop_str op) + blen z) t1 e ->
      opsaid (o + blen p + blen (binop_str op) + blen z + blen t1) t2 l ->
      opsaid o (p ++ binop_str op ++ z ++ t1 ++ t2)
        ((around o p (o + blen p + blen (binop_str op)) z (M (o + blen p) (binop_str op)), op, e) :: l).
  Lemma opsaid_app l1 : forall o t l2, opsaid o t (l1 ++ l2) ->
    exists t1 t2, t = t1 ++ t2 /\ opsaid o t1 l1 /\ opsaid (o + blen t1) t2 l2.
  Proof.
    induction l1 as [|x l1 IH]; intros o t l2 H; cbn [app] in H.
    { exists [], t. repeat split; [constructor|]. cbn [blen]. now rewrite N.add_0_r. }
    inversion H; subst. match goal with H : opsaid _ _ (_ ++ _) |- _ => apply IH in H; destruct H as (a & c & -> & Ha & Hc) end.
    exists (p ++ binop_str op ++ z ++ t1 ++ a), c. split; [now rewrite <- !app_assoc|]. split; [now constructor|].
    rewrite !blen_app. replace (o + (blen p + (blen (binop_str op) + (blen z + (blen t1 + blen a))))) with
      (o + blen p + blen (binop_str op) + blen z + blen t1 + blen a) by lia. exact Hc.
  Qed.
  Lemma spaced_enc o p : at_ I o p -> one_space I (Some (rw o p)) = true -> raw_enc (rw o p) SP = p.
  Proof.
    intros H. destruct p as [|c p]; [now rewrite rw_nil|]. rewrite rw_ne by discriminate. cbn [one_space raw_enc]. intros E.
    exact (written_at o (c :: p) _ H E).
  Qed.
  Lemma tree_said (t : tree) : forall o te to, said o te (head t) -> opsaid (o + blen te) to (tail t) -> said o (te ++ to) (tree_expr t).
  Proof.
    induction t as [a|l IHl op r IHr]; intros o te to He Ho; cbn [head tail tree_expr] in *.
    { inversion Ho; subst. now rewrite app_nil_r. }
    apply opsaid_app in Ho. destruct Ho as (tl & tr & -> & Hl & Hr). specialize (IHl _ _ _ He Hl).
    inversion Hr; subst. match goal with H : said ?k t1 _, H2 : opsaid (?k + blen t1) t2 _ |- _ => specialize (IHr _ _ _ H H2) end.
    destruct IHl as (Sl & Ql & Pl), IHr as (Sr & Qr & Pr). unfold infix_expr. rewrite Sl, Sr. cbn [fst snd].
    assert (E : (fst (sp_of o (te ++ tl)), snd (sp_of (o + blen te + blen tl + blen p + blen (binop_str op0) + blen z) (t1 ++ t2)))
                = sp_of o (te ++ tl ++ p ++ binop_str op0 ++ z ++ t1 ++ t2)).
    { unfold sp_of. cbn [fst snd]. rewrite !blen_app. f_equal. lia. }
    rewrite E. split; [reflexivity|]. split; [intros; split; auto|].
    cbn [x_map x_core LossSpec.faithful x_meta meta_map]. apply prints_must. intros _.
    eapply prints_eq with (t := (te ++ tl) ++ ((p ++ binop_str op0 ++ z) ++ (t1 ++ t2))); [now rewrite <- !app_assoc|].
    apply prints_cat; [apply said_plain with o; split; [|split]; assumption|].
    apply prints_must. intros Hsp. unfold spaced in Hsp. apply andb_prop in Hsp. destruct Hsp as [Hs1 Hs2].
    unfold around in Hs1, Hs2. cbn [set_suffix set_prefix m_decor d_prefix d_suffix] in Hs1, Hs2.
    apply prints_l; [|apply said_plain with (o + blen te + blen tl + blen p + blen (binop_str op0) + blen z); split; [|split]; assumption].
    apply prints_deco; [| |apply prints_pass]; unfold lead, trail, enc_prefix, enc_suffix; cbn; apply spaced_enc; assumption.
  Qed.
  Lemma group_said o te to e ops e' :
    said o te e -> opsaid (o + blen te) to ops -> pratt_group e ops = Some e' -> said o (te ++ to) (x_upd (set_span (sp_of o (te ++ to))) e').
  Proof.
    intros He Ho E. apply pratt_group_keeps in E. destruct E as (t & rest & -> & Hh & -> & Hn).
    apply opsaid_app in Ho. destruct Ho as (t1 & t2 & -> & H1 & H2). subst e. pose proof (tree_said t _ _ _ He H1) as (Hs & Hq & Hp).
    split; [rewrite meta_upd; reflexivity|].
    assert (G : t2 = [] \/ forall fl, fst (faithful (x_upd (set_span (sp_of o (te ++ t1 ++ t2))) (tree_expr t)) fl) <> true).
    { destruct t as [a|l op r]; cbn [tail app] in *.
      - destruct rest as [|x rest]; [inversion H2; subst; now left|]. exfalso. now apply Hn.
      - destruct (N.eq_dec (blen t2) 0) as [Z|Z].
        { left. destruct t2 as [|c t2]; [reflexivity|]. pose proof (blen_pos (c :: t2) ltac:(discriminate)). lia. }
        right. intros fl. cbn [tree_expr infix_expr x_upd x_map LossSpec.faithful]. rewrite meta_X. unfold both, must.
        match goal with |- context [ends_at ?m ?n] => assert (Hx : ends_at m n = false) end.
        { unfold ends_at. rewrite !span_X. cbn [set_span m_span]. cbn [tree_expr infix_expr x_meta] in Hs.
          destruct (m_span (x_meta (tree_expr l))), (m_span (x_meta (tree_expr r))) as [[ra rb]|]; cbn in Hs; try discriminate.
          unfold sp_of in *. injection Hs as _ ->. apply N.eqb_neq. rewrite !blen_app. lia. }
        rewrite Hx. repeat match goal with |- context [let '(_, _) := ?x in _] => destruct x end. cbn. discriminate. }
    destruct G as [->|G].
    - rewrite app_nil_r. rewrite (span_same _ _ Hs). split; [exact Hq|exact Hp].
    - split; intros fl Hf; exfalso; now apply (G fl).
  Qed.

  (** ** Identifiers, decor and raw strings *)
  Ltac ats := repeat match goal with
    | H : at_ _ _ (_ ++ _) |- _ => apply at_app in H; destruct H
    | H : _ /\ _ |- _ => destruct H
    end.
  Ltac nums :=
    rewrite ?blen_assign, ?blen_unop in *;
    repeat match goal with
    | H : context [blen (lit ?s)] |- _ => let v := eval vm_compute in (blen (lit s)) in change (blen (lit s)) with v in H
    | H : context [blen [?c]] |- _ =>
        let v := eval vm_compute in (blen [c]) in lazymatch v with 1%N => idtac end; change (blen [c]) with v in H
    end.
  Ltac fwd := repeat match goal with
    | H : at_ I ?o ?t -> _, H2 : at_ I ?o ?t |- _ => specialize (H H2)
    | H : _ /\ _ |- _ => destruct H
    end.
  Lemma raw_at o t d : at_ I o t -> raw_enc (F (rw o t)) d = t.
  Proof. intros H. rewrite despan_rw by exact H. apply raw_of_str_enc. Qed.
  Lemma prints_raw c o t d : (forall fl, snd (c fl) = fl) -> at_ I o t -> prints c (wr (raw_enc (F (rw o t)) d)) t.
  Proof. intros Hc H. rewrite raw_at by exact H. now apply prints_wr. Qed.
  Lemma gdid_prints o t i df : gdid u o t i -> at_ I o t -> prints pass (enc_did df (did_map F i)) t.
  Proof.
    intros (a & x & z & -> & _ & _ & _ & ->) Ha. ats. unfold enc_did, did_map. cbn [i_meta i_name].
    apply prints_deco; [dec| |apply prints_pass]. unfold around. apply trail_suffix. now rewrite <- N.add_assoc, <- ?blen_app in *.
  Qed.
  Lemma gsid_prints o t i (df : str * str) : fst df = [] -> gsid u o t i -> at_ I o t -> prints pass (enc_did df (did_map F i)) t.
  Proof.
    intros Hd (x & z & -> & _ & _ & ->) Ha. ats. unfold enc_did, did_map. cbn [i_meta i_name].
    apply (prints_deco _ _ _ _ [] x z); [rewrite Hd; dec|dec|apply prints_pass].
  Qed.
  Lemma gns_prints o t ns : rep (gns u) o t ns -> at_ I o t -> forall tn i, prints pass (enc_did NO (did_map F i)) tn ->
    forall name, i :: ns = removelast (i :: ns) ++ [name] ->
    prints pass (cats (map (fun i => enc_did NO i >>> wr (lit "::")) (map (did_map F) (removelast (i :: ns)))) >>> enc_did NO (did_map F name)) (tn ++ t).
  Proof.
    induction 1 as [o|o t1 t2 j l H _ IH]; intros Ha tn i Hi name E.
    - cbn in E. injection E as <-. cbn [removelast map cats]. rewrite app_nil_r. apply (prints_cat_l pass [] _ tn). exact Hi.
    - destruct H as (t' & -> & H). ats. nums. cbn [removelast] in E. cbn [app] in E. injection E as E.
      change (removelast (i :: j :: l)) with (i :: removelast (j :: l)). cbn [map cats].
      eapply prints_out; [intros fl; symmetry; apply cat_assoc|]. eapply prints_out; [intros fl; symmetry; apply cat_assoc|].
      eapply prints_eq with (t := tn ++ lit "::" ++ t' ++ t2); [now rewrite <- !app_assoc|].
      apply prints_l; [exact Hi|]. apply prints_cat_l. apply IH; auto.
      eapply gdid_prints; eauto.
  Qed.
  Lemma gvars_prints df o t k v : gvars u o t k v -> at_ I o t ->
    prints pass (match option_map (did_map F) k with Some k => enc_did LEADING k >>> wr (lit ",") | None => wr [] end >>> enc_did df (did_map F v)) t.
  Proof.
    intros [[-> H]|(t1 & t2 & i & -> & -> & H1 & H2)] Ha; cbn [option_map].
    - apply prints_cat_l with (s := []). eapply gdid_prints; eauto.
    - ats. nums. eapply prints_out; [intros fl; symmetry; apply cat_assoc|]. apply prints_l; [eapply gdid_prints; eauto|].
      apply prints_cat_l. eapply gdid_prints; eauto.
  Qed.
  Lemma strip_prints c f t mk s : prints c f t -> prints c (enc_strip mk s f) (mk ++ tilde_l s ++ t ++ tilde_r s ++ [125]).
  Proof.
    intros H. unfold enc_strip, tilde_l, tilde_r, opt_char. apply prints_cat_l. change (lit "~") with [126]. change (lit "}") with [125].
    apply prints_cat_l. apply prints_r; [exact H|]. apply prints_cat_l. apply prints_pass.
  Qed.
  Lemma gend_prints kw o t a z s : gend kw o t a z s -> at_ I o t ->
    prints pass (enc_strip (lit "%{") s (wr (raw_enc (F a) SP) >>> wr kw >>> wr (raw_enc (F z) SP))) t.
  Proof.
    intros (ta & tz & -> & _ & _ & -> & ->) Ha. ats. nums.
    eapply prints_eq with (t := lit "%{" ++ tilde_l s ++ (ta ++ kw ++ tz) ++ tilde_r s ++ [125]); [now rewrite <- !app_assoc|].
    apply strip_prints. rewrite !raw_at by assumption. apply prints_cat_l. apply prints_cat_l. apply prints_pass.
  Qed.
  Lemma raw_len_rw o t : at_ I o t -> raw_len (Some (F (rw o t))) = blen t.
  Proof. intros H. rewrite despan_rw by exact H. destruct t; reflexivity. Qed.
  Lemma every_in {A} (f : A -> chk) l : forall fl, fst (every (map f l) fl) = true -> forall x, In x l -> exists fl', fst (f x fl') = true.
  Proof.
    induction l as [|a l IH]; intros fl H x Hx; [destruct Hx|]. cbn [map every] in H. unfold both in H.
    destruct (f a fl) as [r1 fl1] eqn:E1. destruct (every (map f l) fl1) as [r2 fl2] eqn:E2. cbn in H. apply andb_prop in H. destruct H as [-> ->].
    destruct Hx as [<-|Hx]; [exists fl; now rewrite E1|]. apply (IH fl1); [now rewrite E2|exact Hx].
  Qed.

  Lemma seqb_spec' (a c : str) : {a = c} + {seqb a c = false}.
  Proof. destruct (seqb a c) eqn:E; [left; now apply seqb_eq|now right]. Qed.
  Definition vend (m : meta) (p : N) : Prop := exists s a, m_span m = Some (s, a) /\ a + raw_len (d_suffix (m_decor m)) = p.
  Definition intro_enc (im : meta) (k : option did) (v : did) (e : xexpr) : out :=
    deco (m_decor (XM im)) NO
      (wr (lit "for") >>>
       match option_map (did_map F) k with Some k => enc_did LEADING k >>> wr (lit ",") | None => wr [] end >>>
       enc_did LEADING (did_map F v) >>> wr (lit "in") >>> xdec core BOTH (X e) >>> wr (lit ":")).
  Notation item_f := (item_faithful show_f64 I).
  Notation cond_f := (cond_faithful show_f64 I).
  Notation itemM := (item_map F leave).
  Notation condM := (cond_map F leave).
  Notation tropM := (trop_map F leave).
  Notation elemM := (elem_map F leave).
  Notation elseM := (else_map F leave).

  Lemma faithful_for m im kv vv c k v g co : faithful (XFor m im kv vv c k v g co) =
    (must (if g && negb (is_some (option_map condM co)) then closes (x_meta (X v)) (XM m) else true) &>
     faithful c &> opt_chk LF (option_map X k) &> faithful v &> opt_chk cond_f (option_map condM co)).
  Proof. reflexivity. Qed.
  Lemma key_X k : key_meta (key_map F leave k) = XM (key_meta k). Proof. destruct k; [reflexivity|apply meta_X]. Qed.
  Lemma item_kept i fl : fst (item_f (itemM i) fl) = true -> kept XM i = true.
  Proof.
    destruct i as [k a v tm]. unfold kept, ikey, ivm, ival. cbn [item_key item_map item_faithful]. intros Hk. fold X in Hk. rewrite key_X, meta_X in Hk. unfold both, must in Hk.
    repeat match type of Hk with context [let '(_, _) := ?x in _] => destruct x end. cbn in Hk. apply andb_prop in Hk. apply Hk.
  Qed.
  Ltac pure := split; [reflexivity|split; [intros; split; [reflexivity|left; reflexivity]|]].

  Theorem all_said :
    (forall o t e, gexpr o t e -> at_ I o t -> said o t e) /\
    (forall o t e, gdx o t e -> at_ I o t -> (forall df, saids df t e) /\ vend (x_meta (X e)) (o + blen t)) /\
    (forall o t e, gpx o t e -> at_ I o t -> forall df : str * str, snd df = [] -> saids df t e) /\
    (forall o t l, gargs o t l -> at_ I o t -> prints (every (map LF (map X l))) (comma_sep (xdec core) (map X l)) t) /\
    (forall o t l, gmore o t l -> at_ I o t -> prints (every (map LF (map X l))) (cats (map (fun y => wr [44] >>> xdec core LEADING y) (map X l))) t) /\
    (forall o t l, gitems o t l -> at_ I o t -> prints (every (map item_f (map itemM l))) (cats (map (item_enc show_f64) (map itemM l))) t /\ placed XM o l) /\
    (forall o t i, gitem o t i -> at_ I o t -> prints (item_f (itemM i)) (item_enc show_f64 (itemM i)) t /\
       exists p, kend (ikey XM i) p /\ vstart (ivm XM i) p /\ o < p /\ p <= o + blen t) /\
    (forall o t l, gtrops o t l -> at_ I o t -> prints (every (map (trop_faithful show_f64 I) (map tropM l))) (cats (map (trop_enc show_f64) (map tropM l))) t) /\
    (forall o t i, gop o t i -> at_ I o t -> prints (op_faithful show_f64 I (op_map F leave i)) (op_enc show_f64 (op_map F leave i)) t) /\
    (forall o t l, gops o t l -> at_ I o t -> opsaid o t l) /\
    (forall o t im kv vv c, gintro o t im kv vv c -> at_ I o t -> prints (faithful c) (intro_enc im kv vv c) t) /\
    (forall o t c, gcond o t c -> at_ I o t ->
       prints (opt_chk cond_f (option_map condM c)) (match option_map condM c with Some c => cond_enc show_f64 c | None => wr [] end) t /\
       forall c' o' q, c = Some c' -> cond_prefix c' = Some REmpty -> at_ I o' q ->
         prints (cond_f (condM (cond_upd (set_prefix (rw o' q)) c'))) (cond_enc show_f64 (condM (cond_upd (set_prefix (rw o' q)) c'))) (q ++ t)) /\
    (forall o t l, gelems o t l -> at_ I o t -> prints (every (map (elem_faithful show_f64 I) (map elemM l))) (cats (map (elem_enc show_f64) (map elemM l))) t) /\
    (forall o t e, gelem o t e -> at_ I o t -> prints (elem_faithful show_f64 I (elemM e)) (elem_enc show_f64 (elemM e)) t) /\
    (forall o t e, gelse o t e -> at_ I o t ->
       prints (opt_chk (else_faithful show_f64 I) (option_map elseM e)) (match option_map elseM e with Some e => else_enc show_f64 e | None => wr [] end) t).
  Proof.
    apply gexpr_all; intros.
    - (* keyword *) unfold keyword. split; [rewrite meta_upd; reflexivity|].
      split; [intros ? _; rewrite meta_upd; repeat destruct (seqb _ _); split; try reflexivity; now left|].
      rewrite core_upd. destruct (seqb_spec' t (lit "null")) as [->|E1]; [apply prints_pass|]. rewrite E1.
      destruct (seqb_spec' t (lit "true")) as [->|E2]; [apply prints_pass|]. rewrite E2.
      destruct (seqb_spec' t (lit "false")) as [->|E3]; [apply prints_pass|]. rewrite E3. apply prints_pass.
    - (* number *) pure. cbn. rewrite raw_of_str_enc. apply prints_pass.
    - pure. cbn. rewrite raw_of_str_enc. apply prints_pass.
    - (* string *) pure. cbn. apply prints_must'. intros E. apply written_at in E; [|assumption]. rewrite E. apply prints_pass.
    - (* array *) subst t. ats. nums. fwd. pure. cbn [x_map x_core LossSpec.faithful]. apply prints_must_r. intros Hc.
      apply prints_cat_l. apply prints_r; [assumption|]. rewrite raw_at by assumption. subst tc.
      match goal with |- prints _ (wr ?x >>> _) _ => replace x with (opt_char 44 c) by (destruct l, c; try discriminate; reflexivity) end.
      apply prints_cat_l. apply prints_cat_l. apply prints_pass.
    - (* object *) subst t. ats. nums. fwd. pure. cbn [x_map x_core LossSpec.faithful].
      apply (prints_if _ (fold_left (fun acc i => items_insert i acc) its [] = its)).
      { intros fl Hf. eapply fold_kept; [eassumption|]. intros i Hi. destruct (every_in item_f _ _ Hf (itemM i) (in_map itemM _ _ Hi)) as (fl' & Hk).
        now apply (item_kept i fl'). }
      intros E. rewrite E. rewrite raw_at by assumption. apply prints_cat_l. apply prints_r; [assumption|]. apply prints_cat_l. apply prints_pass.
    - (* quoted template *) subst t. ats. nums. fwd. pure. cbn [x_map x_core LossSpec.faithful].
      apply prints_cat_l. apply prints_cat_r. now apply prints_quotes.
    - (* heredoc *) match goal with H : at_ I o t |- _ => pose proof (text_at _ _ H) as Ht end.
      pure. cbn [x_map x_core LossSpec.faithful]. apply prints_must. unfold text_is. rewrite span_X. cbn [m_span M]. rewrite Ht. intros Hd. clear Ht.
      match goal with |- prints _ (_ >>> wr ?x >>> _) _ => assert (Ed : x = opt_char 45 indented) end.
      { subst t. destruct indented; [destruct i; [reflexivity|discriminate]|]. rewrite H5 by reflexivity. reflexivity. }
      rewrite Ed. subst t. ats. nums. fwd. rewrite raw_at by assumption.
      match goal with H : at_ I _ le |- _ => pose proof (at_eol _ _ H ltac:(assumption)); subst le end.
      apply prints_cat_l. apply prints_cat_l. apply prints_cat_l. apply prints_cat_l.
      apply prints_r; [|apply prints_cat_l; apply prints_pass]. destruct i as [n|]; cbn [tpl_faithful].
      + apply prints_must'. intros Hw. apply written_at in Hw; [|assumption]. eapply prints_eq; [exact Hw|]. apply prints_pass.
      + assumption.
    - (* parentheses *) subst t. ats. nums. fwd. pure. cbn [x_map x_core LossSpec.faithful].
      apply prints_cat_l. apply prints_cat_r. apply H1.
    - (* conditional *) subst t. ats. nums. fwd. pure. cbn [x_map x_core LossSpec.faithful].
      eapply prints_eq with (t := (tc ++ z) ++ [63] ++ ta ++ [58] ++ tb); [now rewrite <- !app_assoc|].
      apply prints_cat.
      + apply (said_dec o tc c _ _ [] z); [assumption|reflexivity|]. intros Q. split; dec.
      + apply prints_cat_l. apply prints_cat; [apply H4|]. apply prints_cat_l. apply H6. reflexivity.
    - (* call *) subst t. ats. nums. fwd. pure. cbn [x_map x_core LossSpec.faithful].
      match goal with H : gsid _ _ _ _, H2 : at_ I o tn |- _ => pose proof (gsid_prints _ _ _ NO eq_refl H H2) as Hi end.
      match goal with H : rep _ _ _ _, H2 : at_ I (o + blen tn) tns |- _ => pose proof (gns_prints _ _ _ H H2 _ _ Hi _ ltac:(eassumption)) as Hn end.
      eapply prints_out; [apply cat_assoc|].
      eapply prints_eq with (t := (tn ++ tns) ++ ([40] ++ tl ++ tc ++ tt ++ [41])); [now rewrite <- !app_assoc|].
      apply prints_l; [exact Hn|]. rewrite raw_at by assumption.
      eapply prints_eq with (t := [] ++ ([40] ++ tl ++ tc ++ tt ++ [41]) ++ []); [cbn [app]; now rewrite app_nil_r|].
      apply prints_deco; [dec|dec|]. apply prints_cat_l. apply prints_r; [assumption|].
      match goal with |- prints _ (wr ?x >>> _) _ => replace x with tc end.
      { apply prints_cat_l. apply prints_cat_l. apply prints_pass. }
      subst tc. destruct l; [destruct (H6 eq_refl); subst; reflexivity|reflexivity].
    - (* traversal *) subst t. ats. nums. fwd. pure. cbn [x_map x_core LossSpec.faithful].
      eapply prints_eq with (t := (te ++ z) ++ to); [now rewrite <- !app_assoc|].
      apply prints_cat; [|assumption]. apply (said_dec o te e _ _ [] z); [assumption|reflexivity|]. intros Q. split; dec.
    - (* unary *) subst t. ats. nums. fwd. pure. cbn [x_map x_core LossSpec.faithful]. apply prints_cat_l. apply H1. reflexivity.
    - (* binary *) subst t. ats. fwd. eapply group_said; eassumption.
    - (* for list *) subst t. ats. nums. fwd. pure. rewrite faithful_for. cbn [x_map x_core option_map opt_chk is_some andb].
      fold (intro_enc im kv vv coll). apply prints_must. intros _. apply prints_cat_l. apply prints_cat; [assumption|].
      eapply prints_ext with (c := faithful v &> opt_chk cond_f (option_map condM c)).
      { intros fl. unfold both, pass. destruct (faithful v fl) as [x fl1], (opt_chk cond_f (option_map condM c) fl1) as [y fl2]. reflexivity. }
      apply prints_cat; [apply H3|]. now apply prints_cat_r.
    - (* for object *) subst t. ats. nums. fwd. pure. rewrite faithful_for. cbn [x_map x_core option_map opt_chk is_some andb].
      fold (intro_enc im kv vv coll). apply prints_must. intros _. apply prints_cat_l. apply prints_cat; [assumption|].
      apply prints_cat; [apply H3|]. apply prints_cat_l. apply prints_cat; [apply H5|]. apply (prints_cat_l _ []). now apply prints_cat_r.
    - (* for object with grouping *)
      assert (En : forall fl, fst (faithful (XFor (set_suffix (rw (o + 1 + blen ti + blen tk + 2 + blen tv + 3) tt) (M o t)) im kv vv coll (Some k) v true None) fl) = true -> tt = []).
      { intros fl. rewrite faithful_for. cbn [andb negb is_some]. unfold both, must. unfold closes. cbn [set_suffix m_span M sp_of]. intros Hf.
        repeat match type of Hf with context [let '(_, _) := ?x in _] => destruct x end. cbn [fst] in Hf. apply andb_prop in Hf. destruct Hf as [Hf _].
        subst t. ats. nums. fwd. match goal with H : vend (x_meta (X v)) _ |- _ => destruct H as (vs & va & Ev & Ea) end. rewrite Ev, span_X in Hf.
        cbn [option_map is_some negb set_suffix m_span M sp_of] in Hf.
        apply N.eqb_eq in Hf. destruct tt as [|x tt]; [reflexivity|]. pose proof (blen_pos (x :: tt) ltac:(discriminate)).
        rewrite !blen_app in Hf. change (blen [123]) with 1 in Hf. change (blen [125]) with 1 in Hf. change (blen (lit "=>")) with 2 in Hf.
        change (blen (lit "...")) with 3 in Hf. lia. }
      split; [reflexivity|]. split.
      { intros fl Hf. rewrite (En fl Hf), rw_nil. split; [reflexivity|right; reflexivity]. }
      apply (prints_if _ _ _ _ En). intros ->. clear En. subst t. ats. nums. fwd.
      rewrite faithful_for. cbn [x_map x_core option_map opt_chk is_some andb]. apply prints_must. intros _.
      fold (intro_enc im kv vv coll). apply prints_cat_l. apply prints_cat; [assumption|].
      apply prints_cat; [apply H3|]. apply prints_cat_l. apply prints_cat; [apply H5|]. apply prints_cat_l. apply prints_cat_l. apply prints_pass.
    - (* and a condition *) subst t. ats. nums. fwd. pure. rewrite faithful_for. cbn [x_map x_core option_map opt_chk is_some andb negb].
      fold (intro_enc im kv vv coll). apply prints_must. intros _. apply prints_cat_l. apply prints_cat; [assumption|].
      apply prints_cat; [apply H3|]. apply prints_cat_l. apply prints_cat; [apply H5|]. apply prints_cat_l.
      eapply prints_eq with (t := (tt ++ tc) ++ [125]); [now rewrite <- !app_assoc|]. apply prints_cat_r.
      replace (cond_f (cond_upd (set_prefix (rw (o + 1 + blen ti + blen tk + 2 + blen tv + 3) tt)) c)) with (cond_f c) by now destruct c.
      exact (H18 _ _ _ eq_refl H9 H15).
    - (* decorated on both sides *) subst t. ats. nums. fwd. destruct H3 as (Hsp & Hq & Hp). rewrite (span_same _ _ Hsp).
      split; [|exists (o + blen a), (o + blen a + blen te); rewrite meta_X, meta_upd; split; [exact Hsp|]; unfold around, meta_map; cbn [set_suffix m_decor d_suffix decor_map option_map];
               rewrite raw_len_rw by assumption; rewrite !blen_app; lia].
      intros df. assert (Hs : said (o + blen a) te e) by (split; [|split]; assumption). eapply said_dec; [eassumption|reflexivity|]. intros Q. split; dec.
    - subst t. ats. nums. fwd. rewrite (span_same _ _ (proj1 H2)).
      eapply prints_eq with (t := a ++ te ++ []); [now rewrite app_nil_r|].
      eapply said_dec; [eassumption|reflexivity|]. intros Q. rewrite H4. split; dec.
    - apply prints_pass.
    - ats. nums. fwd. cbn [map every comma_sep]. apply prints_cat; [apply H0|assumption].
    - apply prints_pass.
    - ats. nums. fwd. cbn [map every cats].
      eapply prints_eq with (t := ([44] ++ t1) ++ t2); [now rewrite <- !app_assoc|].
      apply prints_cat; [apply prints_cat_l; apply H0|assumption].
    - split; [apply prints_pass|exact Logic.I].
    - ats. nums. fwd. destruct H6 as (p & Hp1 & Hp2 & Hp3 & Hp4). split.
      + cbn [map every cats]. apply prints_cat; assumption.
      + exists p. repeat split; auto. eapply placed_le; [|eassumption]. exact Hp4.
    - (* item *) subst t. ats. nums. fwd. destruct H2 as (Hsk & Hqk & Hpk), H6 as (Hsv & Hqv & Hpv). rewrite (span_same _ _ Hsv).
      assert (Hm : m_span (key_meta (key_upd (around o p (o + blen p + blen tk) zk) (key_upd (set_span (sp_of (o + blen p) tk)) (key_of_expr k)))) = Some (sp_of (o + blen p) tk)
                /\ d_suffix (m_decor (key_meta (key_upd (around o p (o + blen p + blen tk) zk) (key_upd (set_span (sp_of (o + blen p) tk)) (key_of_expr k))))) = Some (rw (o + blen p + blen tk) zk)).
      { destruct k; split; reflexivity. }
      assert (Hk : prints (key_faithful show_f64 I (key_map F leave (key_upd (around o p (o + blen p + blen tk) zk) (key_upd (set_span (sp_of (o + blen p) tk)) (key_of_expr k)))))
                     (key_enc show_f64 (key_map F leave (key_upd (around o p (o + blen p + blen tk) zk) (key_upd (set_span (sp_of (o + blen p) tk)) (key_of_expr k))))) (p ++ tk ++ zk)).
      { assert (D : (exists m x, k = XVar m x) \/ key_of_expr k = XKExpr k) by (destruct k; eauto).
        destruct D as [(m & x & ->)| ->].
        - assert (Ex : x = tk) by (specialize (Hpk false eq_refl); now injection Hpk). subst x. cbn [key_of_expr key_upd key_map key_enc key_faithful].
          unfold enc_did, did_map, did_upd. cbn [i_meta i_name]. apply prints_deco; [dec|dec|apply prints_pass].
        - cbn [key_upd]. rewrite (span_same _ _ Hsk). cbn [key_map key_enc key_faithful].
          apply (said_dec (o + blen p) tk k); [split; [|split]; assumption|reflexivity|]. intros Q. split; dec. }
      remember (key_upd (around o p (o + blen p + blen tk) zk) (key_upd (set_span (sp_of (o + blen p) tk)) (key_of_expr k))) as kk eqn:Ekk. clear Ekk.
      destruct Hm as [Hm1 Hm2]. split.
      + cbn [item_map item_enc item_faithful]. apply prints_must. intros _.
        eapply prints_eq with (t := (p ++ tk ++ zk) ++ assign_str asg ++ (pv ++ tv ++ zv) ++ te); [now rewrite <- !app_assoc|].
        apply prints_cat; [exact Hk|].
        replace (match asg with AColon => lit ":" | AEquals => lit "=" end) with (assign_str asg) by now destruct asg.
        apply prints_cat_l.
        match goal with |- prints _ (_ >>> wr ?x) _ => assert (Et : x = te) end.
        { destruct H7 as [_ [[-> ->]|[[-> ->]|[-> He]]]]; [reflexivity|reflexivity|]. symmetry. eapply at_eol; eassumption. }
        rewrite Et. apply prints_cat_r. eapply (said_dec _ tv v); [split; [|split]; eassumption|reflexivity|]. intros Q. split; dec.
      + exists (o + blen p + blen tk + blen zk + 1). unfold kend, vstart, ikey, ivm, ival. cbn [item_key]. rewrite !span_X, Hm1, meta_upd.
        unfold around, meta_map. cbn [set_suffix set_prefix m_decor m_span d_prefix d_suffix decor_map option_map]. rewrite Hm2. cbn [option_map].
        rewrite Hsv, !raw_len_rw by assumption.
        repeat match goal with |- _ /\ _ => split end.
        * exists (o + blen p), (o + blen p + blen tk). split; [reflexivity|lia].
        * exists (o + blen p + blen tk + blen zk + 1 + blen pv), (o + blen p + blen tk + blen zk + 1 + blen pv + blen tv). split; [reflexivity|lia].
        * lia.
        * rewrite !blen_app, blen_assign. lia.
    - apply prints_pass.
    - (* traversal operators *) ats. nums. fwd. cbn [map every cats trop_map trop_faithful trop_enc].
      eapply prints_eq with (t := (p ++ t1) ++ t2); [now rewrite <- !app_assoc|]. apply prints_cat; [|assumption].
      apply prints_must. unfold bare. cbn [set_prefix m_decor d_prefix M]. intros Hb.
      assert (p = []) as -> by (destruct p; [reflexivity|]; rewrite rw_ne in Hb by discriminate; discriminate).
      eapply prints_eq with (t := [] ++ t1 ++ []); [cbn [app]; now rewrite app_nil_r|]. rewrite rw_nil.
      apply prints_deco; [reflexivity|reflexivity|assumption].
    - (* attribute splat *) subst t. ats. nums. cbn [op_map op_enc op_faithful]. apply prints_cat_l.
      eapply prints_eq with (t := p ++ [42] ++ []); [reflexivity|]. apply prints_deco; [dec|dec|apply prints_pass].
    - (* attribute *) subst t. ats. nums. cbn [op_map op_enc op_faithful]. apply prints_cat_l.
      eapply prints_eq with (t := p ++ x ++ []); [now rewrite app_nil_r|]. unfold enc_did, did_map. cbn [i_meta i_name]. apply prints_deco; [dec|dec|apply prints_pass].
    - (* legacy index *) subst t. ats. nums. cbn [op_map op_enc op_faithful]. apply prints_cat_l.
      eapply prints_eq with (t := p ++ d ++ []); [now rewrite app_nil_r|]. apply prints_deco; [dec|dec|].
      rewrite show_digits by assumption. apply prints_pass.
    - (* full splat *) subst t. ats. nums. cbn [op_map op_enc op_faithful]. apply prints_cat_l.
      eapply prints_eq with (t := (p ++ [42] ++ z) ++ [93]); [now rewrite <- !app_assoc|]. apply prints_cat_r. apply prints_deco; [dec|dec|apply prints_pass].
    - (* index *) subst t. ats. nums. fwd. cbn [op_map op_enc op_faithful]. apply prints_cat_l. apply prints_cat_r. apply H1.
    - constructor.
    - ats. fwd. constructor; assumption.
    - (* intro *) subst t. ats. nums. fwd. unfold intro_enc.
      eapply prints_eq with (t := p ++ (lit "for" ++ tv ++ lit "in" ++ tc ++ [58]) ++ []); [now rewrite app_nil_r|].
      apply prints_deco; [dec|dec|]. apply prints_cat_l. eapply prints_out; [apply cat_assoc|].
      apply prints_l; [eapply gvars_prints; eassumption|]. apply prints_cat_l. apply prints_cat_r. apply H3.
    - split; [apply prints_pass|discriminate].
    - (* condition *) subst t. ats. nums. fwd. cbn [opt_chk option_map cond_map cond_enc cond_faithful]. split.
      + eapply prints_eq with (t := p ++ (lit "if" ++ te) ++ []); [now rewrite app_nil_r|].
        apply prints_deco; [dec|dec|]. apply prints_cat_l. apply H2.
      + intros c' o' q [= <-] Hc Ha. cbn [cond_prefix set_prefix m_decor d_prefix] in Hc.
        assert (p = []) as -> by (destruct p; [reflexivity|]; rewrite rw_ne in Hc by discriminate; discriminate).
        cbn [cond_upd cond_map cond_enc cond_faithful]. cbn [app].
        eapply prints_eq with (t := q ++ (lit "if" ++ te) ++ []); [now rewrite app_nil_r|].
        apply prints_deco; [dec|dec|]. apply prints_cat_l. apply H2.
    - apply prints_pass.
    - ats. fwd. cbn [map every cats]. apply prints_cat; assumption.
    - (* literal *) cbn [elem_map elem_enc elem_faithful]. intros fl. cbn [fst snd]. intros Hw. apply written_at in Hw; [|assumption]. now rewrite Hw.
    - (* interpolation *) subst t. ats. nums. fwd. cbn [elem_map elem_enc elem_faithful]. apply strip_prints. apply H1.
    - (* if *) subst t ot. ats. nums. fwd. cbn [elem_map elem_enc elem_faithful tpl_map tpl_enc tpl_faithful]. rewrite raw_at by assumption.
      eapply prints_eq with (t := (lit "%{" ++ tilde_l s ++ (p ++ lit "if" ++ ti) ++ tilde_r s ++ [125]) ++ tb ++ tl ++ te); [now rewrite <- !app_assoc|].
      apply prints_cat; [apply strip_prints; apply prints_cat_l; apply prints_cat_l; apply H2|].
      apply prints_cat; [assumption|]. apply prints_r; [assumption|]. eapply gend_prints; eassumption.
    - (* for *) subst t ot. ats. nums. fwd. cbn [elem_map elem_enc elem_faithful tpl_map tpl_enc tpl_faithful]. rewrite raw_at by assumption.
      eapply prints_eq with (t := (lit "%{" ++ tilde_l s ++ (p ++ lit "for" ++ tv ++ lit "in" ++ tc) ++ tilde_r s ++ [125]) ++ tb ++ te); [now rewrite <- !app_assoc|].
      apply prints_cat.
      { apply strip_prints. apply prints_cat_l. apply prints_cat_l. eapply prints_out; [apply cat_assoc|].
        apply prints_l; [eapply gvars_prints; eassumption|]. apply prints_cat_l. apply H3. }
      apply prints_r; [assumption|]. eapply gend_prints; eassumption.
    - apply prints_pass.
    - subst t. ats. nums. fwd. cbn [opt_chk option_map else_map else_enc else_faithful tpl_map tpl_enc tpl_faithful]. apply prints_l; [eapply gend_prints; eassumption|assumption].
  Qed.

  (** ** Structures *)
  Notation gstruct := (gstruct u b parse_f64 pratt_group items_insert).
  Notation gblock := (gblock u b parse_f64 pratt_group items_insert).
  Notation gbody := (gbody u b parse_f64 pratt_group items_insert).
  Notation gstructs := (gstructs u b parse_f64 pratt_group items_insert).
  Notation SM := (struct_map F leave).
  Notation BM := (body_map F leave).
  Notation struct_f := (struct_faithful show_f64 I).
  Notation body_f := (body_faithful show_f64 I).
  Notation score := (s_core show_f64).
  Definition block_enc (x : xbody) : out :=
    match x with
    | XBody m l one _ =>
        deco (m_decor m) NO
          (if one && oneline_ok l
           then match l with x :: _ => sdec score BOTH x | [] => wr [] end
           else wr [10] >>> cats (map (fun x => sdec score NO x >>> wr [10]) l))
    end.
  Lemma glabels_print o t l : rep (glabel u) o t l -> at_ I o t ->
    prints (every (map (label_faithful I) (map (label_map F) l))) (cats (map label_enc (map (label_map F) l))) t.
  Proof.
    induction 1 as [o|o t1 t2 i l H _ IH]; intros Ha; [apply prints_pass|]. cbn [map every cats]. ats.
    apply prints_cat; [|now apply IH]. clear IH. destruct H as (x & z & -> & Hz & H). ats.
    destruct H as [[_ ->]|(_ & s & ->)]; cbn [label_map label_faithful label_enc].
    - unfold enc_did, did_map. cbn [i_meta i_name]. apply (prints_deco _ _ _ _ [] x z); [dec|dec|apply prints_pass].
    - apply prints_must'. cbn [set_suffix m_span M]. intros E. apply written_at in E; [|assumption]. rewrite E.
      apply (prints_deco _ _ _ _ [] x z); [dec|dec|apply prints_pass].
  Qed.
  Lemma sdec_prints o t x df f p z :
    prints (struct_f (SM x)) (score (SM x)) t -> struct_meta x = M o t ->
    lead (XM (f (M o t))) (fst df) p -> trail (XM (f (M o t))) (snd df) z ->
    prints (struct_f (SM (struct_upd f x))) (sdec score df (SM (struct_upd f x))) (p ++ t ++ z).
  Proof.
    intros H Hm Hl Ht. unfold sdec.
    replace (struct_meta (SM (struct_upd f x))) with (XM (f (M o t))) by (rewrite <- Hm; destruct x; reflexivity).
    replace (struct_f (SM (struct_upd f x))) with (struct_f (SM x)) by now destruct x.
    replace (score (SM (struct_upd f x))) with (score (SM x)) by now destruct x.
    now apply prints_deco.
  Qed.
  Theorem all_structs :
    (forall o t x, gstruct o t x -> at_ I o t -> prints (struct_f (SM x)) (score (SM x)) t /\ struct_meta x = M o t) /\
    (forall o t x, gblock o t x -> at_ I o t -> prints (body_f (BM x)) (block_enc (BM x)) t) /\
    (forall o t x, gbody o t x -> at_ I o t -> prints (body_f (BM x)) (body_enc show_f64 (BM x)) t /\
       forall m l, x = XBody m l false false -> forall p o', at_ I o' p ->
         prints (body_f (BM x)) (block_enc (BM (body_upd (fun m => set_prefix (rw o' p) (set_span (sp_of (o' + blen p) ([10] ++ t)) m)) x))) (p ++ [10] ++ t)) /\
    (forall ks o t l om, gstructs ks o t l om -> at_ I o t ->
       prints (every (map struct_f (map SM l))) (structs_enc show_f64 om (map SM l)) t /\
       (om = false -> prints (every (map struct_f (map SM l))) (cats (map (fun x => sdec score NO x >>> wr [10]) (map SM l))) t)).
  Proof.
    destruct all_said as (_ & _ & Hgpx & _).
    apply gstruct_all; intros.
    - subst t. ats. nums. split; [|reflexivity]. cbn [struct_map s_core struct_faithful].
      apply prints_l; [eapply gsid_prints; [reflexivity|eassumption|eassumption]|]. apply prints_cat_l.
      eapply Hgpx; [eassumption|assumption|reflexivity].
    - subst t. ats. nums. fwd. split; [|reflexivity].
      change (struct_f (SM (XBlock (M o (ti ++ tl ++ [123] ++ tb ++ [125])) i ls bd))) with (every (map (label_faithful I) (map (label_map F) ls)) &> body_f (BM bd)).
      change (score (SM (XBlock (M o (ti ++ tl ++ [123] ++ tb ++ [125])) i ls bd))) with
        (enc_did TRAILING (did_map F i) >>> cats (map label_enc (map (label_map F) ls)) >>> wr (lit "{") >>> block_enc (BM bd) >>> wr (lit "}")).
      apply prints_l; [eapply gsid_prints; [reflexivity|eassumption|eassumption]|].
      apply prints_cat; [eapply glabels_print; eassumption|]. apply prints_cat_l. apply prints_cat_r. assumption.
    - cbn [body_map map block_enc body_faithful every oneline_ok andb].
      apply (prints_deco _ _ _ _ [] [] z); [dec|dec|apply prints_pass].
    - subst t. ats. nums. fwd. destruct x as [m k v|]; [|now destruct H3].
      match goal with |- prints _ (block_enc (BM (XBody ?m0 _ _ _))) _ =>
        change (prints (struct_f (SM (struct_upd (around o p (o + blen p + blen ta) z) (XAttr m k v))) &> pass)
          (deco (m_decor (XM m0)) NO (sdec score BOTH (SM (struct_upd (around o p (o + blen p + blen ta) z) (XAttr m k v))))) (p ++ ta ++ z ++ z')) end.
      eapply prints_ext with (c := struct_f (SM (struct_upd (around o p (o + blen p + blen ta) z) (XAttr m k v)))).
      { intros fl. unfold both, pass. destruct (struct_f _ fl). now rewrite andb_true_r. }
      eapply prints_eq with (t := [] ++ (p ++ ta ++ z) ++ z'); [cbn [app]; now rewrite <- !app_assoc|].
      apply prints_deco; [dec|dec|]. eapply sdec_prints; [eassumption|eassumption|dec|dec].
    - subst t. ats. nums. match goal with H : at_ I _ le |- _ => pose proof (at_eol _ _ H ltac:(assumption)); subst le end. fwd.
      match goal with H : forall m0 l0, XBody m l false false = _ -> _ |- _ => exact (H _ _ eq_refl p o ltac:(assumption)) end.
    - subst t. ats. nums. fwd. split.
      + cbn [body_map body_enc body_faithful].
        apply (prints_deco _ _ _ _ [] ts z); [dec|dec|assumption].
      + intros m l' [= <- <- ->] p o' Hp. cbn [body_upd body_map block_enc body_faithful andb].
        eapply prints_eq with (t := p ++ ([10] ++ ts) ++ z); [now rewrite <- !app_assoc|].
        apply prints_deco; [dec|dec|]. apply prints_cat_l. auto.
    - split; intros; apply prints_pass.
    - ats. match goal with H : at_ I _ le |- _ => pose proof (at_eol _ _ H ltac:(assumption)); subst le end. fwd.
      match goal with |- context [struct_upd ?f x] => assert (Hx : prints (struct_f (SM (struct_upd f x))) (sdec score NO (SM (struct_upd f x))) (p ++ t1 ++ z)) by
        (eapply sdec_prints; [eassumption|eassumption|dec|dec]) end.
      split.
      + cbn [map every]. eapply prints_eq with (t := (p ++ t1 ++ z) ++ [10] ++ t2); [now rewrite <- !app_assoc|].
        match goal with H : gstructs _ _ t2 l omit |- _ => inversion H; subst end.
        * cbn [map structs_enc]. eapply prints_cat; [exact Hx|]. apply prints_pass.
        * apply prints_cat; [exact Hx|]. now apply prints_cat_l.
        * apply prints_cat; [exact Hx|]. now apply prints_cat_l.
      + intros Hom. cbn [map every cats]. eapply prints_eq with (t := ((p ++ t1 ++ z) ++ [10]) ++ t2); [now rewrite <- !app_assoc|].
        apply prints_cat; [apply prints_cat_r; exact Hx|auto].
    - ats. fwd. split; [|discriminate]. cbn [map every structs_enc].
      eapply prints_eq with (t := (p ++ t1 ++ z) ++ []); [now rewrite app_nil_r|]. apply prints_cat; [|apply prints_pass].
      eapply sdec_prints; [eassumption|eassumption|dec|dec].
  Qed.

  (** ** Whole inputs *)
  Lemma at_all : at_ I 0 I. Proof. exists [], []. now rewrite app_nil_r. Qed.
  Theorem expr_lossless e : gexpr 0 I e -> expr_is_faithful show_f64 I (X e) -> show_expr show_f64 (X e) = I.
  Proof.
    intros H Hf. destruct all_said as (Hx & _). pose proof (said_plain _ _ _ (Hx _ _ _ H at_all) false Hf) as E.
    unfold show_expr, x_enc. now rewrite E.
  Qed.
  Theorem tpl_lossless es : gelems 0 I es -> tpl_is_faithful show_f64 I (tpl_map F leave (XTempl es None)) -> show_tpl show_f64 (tpl_map F leave (XTempl es None)) = I.
  Proof.
    intros H Hf. destruct all_said as (_ & _ & _ & _ & _ & _ & _ & _ & _ & _ & _ & _ & Hx & _).
    pose proof (Hx _ _ _ H at_all false Hf) as E. exact (f_equal fst E).
  Qed.
  Theorem body_lossless x : gbody 0 I x -> body_is_faithful show_f64 I (BM x) -> show_body show_f64 (BM x) = I.
  Proof.
    intros H Hf. destruct all_structs as (_ & _ & Hb & _). destruct (Hb _ _ _ H at_all) as [Hp _].
    unfold show_body. rewrite (Hp false Hf). reflexivity.
  Qed.
End Loss.
