(** * Where the parts of a syntax tree are: proofs *)
From Coq Require Import NArith ZArith Arith Bool String List Lia.
From Verif Require Import Res Str Dec NumberModel PrimModel EAst EncModel ParseBase ParseModel Grammar.
From Verif Require Import ParseLemmas ParseSound ParseSoundRec ParseTop ParseFacts EAstInd PrattSpec PrattProofs LossBase LossProofs LossFacts SpanSpec.
Import ListNotations.
Open Scope N_scope.

Scheme placed_mut := Minimality for placed Sort Prop with in_order_mut := Minimality for in_order Sort Prop.
Combined Scheme placed_all from placed_mut, in_order_mut.

Section Placed.
  Context (I : str).
  Notation placed := (SpanSpec.placed I).
  Notation in_order := (SpanSpec.in_order I).
  Lemma wider : (forall lo hi t, placed lo hi t -> forall lo' hi', lo' <= lo -> hi <= hi' -> placed lo' hi' t) /\
    (forall lo hi l, in_order lo hi l -> forall lo' hi', lo' <= lo -> hi <= hi' -> in_order lo' hi' l).
  Proof.
    apply placed_all; intros.
    - constructor; auto; lia.
    - constructor. auto.
    - constructor. intros. auto.
    - constructor. lia.
    - apply ICons with mid; [lia|apply H1; lia|apply H3; lia].
  Qed.
  Lemma next a c lo hi t l : lo <= a -> a <= c -> placed a c t -> in_order c hi l -> in_order lo hi (t :: l).
  Proof. intros. apply ICons with c; [lia| |assumption]. eapply (proj1 wider); [eassumption|lia|lia]. Qed.
  Lemma join l1 : forall lo mid hi l2, in_order lo mid l1 -> in_order mid hi l2 -> in_order lo hi (l1 ++ l2).
  Proof.
    induction l1 as [|t l1 IH]; intros lo mid hi l2 H1 H2; inversion H1; subst; cbn [app].
    - eapply (proj2 wider); [eassumption|assumption|lia].
    - apply ICons with mid0; eauto.
  Qed.
  Lemma le_order l : forall lo hi, in_order lo hi l -> lo <= hi.
  Proof. induction l as [|t l IH]; intros lo hi H; inversion H; subst; [assumption|]. apply IH in H6. lia. Qed.
End Placed.

Section Spans.
  Context (u : unicode) (b : build) (parse_f64 : str -> f64) (I : str).
  Notation gexpr := (gexpr u b parse_f64 pratt_group items_insert).
  Notation gdx := (gdx u b parse_f64 pratt_group items_insert).
  Notation gpx := (gpx u b parse_f64 pratt_group items_insert).
  Notation gargs := (gargs u b parse_f64 pratt_group items_insert).
  Notation gmore := (gmore u b parse_f64 pratt_group items_insert).
  Notation gitems := (gitems u b parse_f64 pratt_group items_insert).
  Notation gitem := (gitem u b parse_f64 pratt_group items_insert).
  Notation gtrops := (gtrops u b parse_f64 pratt_group items_insert).
  Notation gop := (gop u b parse_f64 pratt_group items_insert).
  Notation gops := (gops u b parse_f64 pratt_group items_insert).
  Notation gintro := (gintro u b parse_f64 pratt_group items_insert).
  Notation gcond := (gcond u b parse_f64 pratt_group items_insert).
  Notation gelems := (gelems u b parse_f64 pratt_group items_insert).
  Notation gelem := (gelem u b parse_f64 pratt_group items_insert).
  Notation gelse := (gelse u b parse_f64 pratt_group items_insert).
  Notation placed := (SpanSpec.placed I).
  Notation in_order := (SpanSpec.in_order I).
  Notation O := (o_expr b parse_f64).

  Lemma O_upd f e : (forall m, m_span (f m) = m_span m) -> O (x_upd f e) = O e.
  Proof. intros H. destruct e; cbn [x_upd o_expr]; rewrite ?H; reflexivity. Qed.
  Lemma meta_upd f e : x_meta (x_upd f e) = f (x_meta e). Proof. destruct e; reflexivity. Qed.
  Lemma span_same sp e : m_span (x_meta e) = Some sp -> x_upd (set_span sp) e = e.
  Proof. unfold set_span. destruct e; cbn [x_meta x_upd]; intros H; destruct m; cbn in *; subst; reflexivity. Qed.

  Ltac ats := repeat match goal with
    | H : at_ _ _ (_ ++ _) |- _ => apply at_app in H; destruct H
    | H : _ /\ _ |- _ => destruct H
    end.
  Ltac nums :=
    rewrite ?blen_assign, ?blen_unop in *;
    repeat match goal with
    | H : context [blen (lit ?s)] |- _ => let v := eval vm_compute in (blen (lit s)) in change (blen (lit s)) with v in H
    | H : context [blen [?c]] |- _ =>
        let v := eval vm_compute in (blen [c]) in lazymatch v with 1%N => idtac end; change (blen [c]) with v in H
    end.
  Ltac fwd := repeat match goal with
    | H : at_ I ?o ?t -> _, H2 : at_ I ?o ?t |- _ => specialize (H H2)
    | H : _ /\ _ |- _ => destruct H
    end.
  Ltac len := unfold sp_of in *; rewrite ?blen_app, ?blen_assign, ?blen_unop in *;
    repeat match goal with
    | |- context [blen (lit ?s)] => let v := eval vm_compute in (blen (lit s)) in change (blen (lit s)) with v
    | |- context [blen [?c]] => let v := eval vm_compute in (blen [c]) in lazymatch v with 1%N => idtac end; change (blen [c]) with v
    end; lia.
  (** A node whose span is the range of the whole text. *)
  Lemma node o t (looks : str -> Prop) l : at_ I o t -> looks t -> in_order o (o + blen t) l -> placed o (o + blen t) (ONode looks (Some (sp_of o t)) l).
  Proof. intros. unfold sp_of. constructor; auto; lia. Qed.

  Definition here (o : N) (t : str) (e : xexpr) : Prop :=
    m_span (x_meta e) = Some (sp_of o t) /\ placed o (o + blen t) (O e).

  Inductive ophere : N -> str -> list (oper * xexpr) -> Prop :=
  | OHNil o : ophere o [] []
  | OHCons o p z op t1 t2 e l :
      at_ I o (p ++ binop_str op ++ z ++ t1 ++ t2) ->
      here (o + blen p + blen (binop_str op) + blen z) t1 e ->
      ophere (o + blen p + blen (binop_str op) + blen z + blen t1) t2 l ->
      ophere o (p ++ binop_str op ++ z ++ t1 ++ t2)
        ((around o p (o + blen p + blen (binop_str op)) z (M (o + blen p) (binop_str op)), op, e) :: l).
  Lemma ophere_app l1 : forall o t l2, ophere o t (l1 ++ l2) ->
    exists t1 t2, t = t1 ++ t2 /\ ophere o t1 l1 /\ ophere (o + blen t1) t2 l2.
  Proof.
    induction l1 as [|x l1 IH]; intros o t l2 H; cbn [app] in H.
    { exists [], t. repeat split; [constructor|]. cbn [blen]. now rewrite N.add_0_r. }
    inversion H; subst. match goal with H : ophere _ _ (_ ++ _) |- _ => apply IH in H; destruct H as (a & c & -> & Ha & Hc) end.
    exists (p ++ binop_str op ++ z ++ t1 ++ a), c. split; [now rewrite <- !app_assoc|]. split.
    - constructor; auto. match goal with H : at_ I o _ |- _ => replace (p ++ binop_str op ++ z ++ t1 ++ a ++ c) with ((p ++ binop_str op ++ z ++ t1 ++ a) ++ c) in H by now rewrite <- !app_assoc end.
      now apply at_app in H2.
    - rewrite !blen_app. replace (o + (blen p + (blen (binop_str op) + (blen z + (blen t1 + blen a))))) with
      (o + blen p + blen (binop_str op) + blen z + blen t1 + blen a) by lia. exact Hc.
  Qed.
  Lemma tree_here (t : tree) : forall o te to, at_ I o (te ++ to) -> here o te (head t) -> ophere (o + blen te) to (tail t) -> here o (te ++ to) (tree_expr t).
  Proof.
    induction t as [a|l IHl op r IHr]; intros o te to Ha He Ho; cbn [head tail tree_expr] in *.
    { inversion Ho; subst. now rewrite app_nil_r. }
    apply ophere_app in Ho. destruct Ho as (tl & tr & -> & Hl & Hr).
    assert (Ha' : at_ I o (te ++ tl)) by (rewrite app_assoc in Ha; now apply at_app in Ha).
    specialize (IHl _ _ _ Ha' He Hl). ats.
    inversion Hr; subst.
    match goal with H : here ?k t1 _, H2 : ophere (?k + blen t1) t2 _ |- _ => assert (Hat : at_ I k (t1 ++ t2)) by (ats; now apply at_app) end.
    match goal with H : here ?k t1 _, H2 : ophere (?k + blen t1) t2 _ |- _ => specialize (IHr _ _ _ Hat H H2) end.
    destruct IHl as (Sl & Pl), IHr as (Sr & Pr). unfold infix_expr. rewrite Sl, Sr. cbn [fst snd].
    assert (E : (fst (sp_of o (te ++ tl)), snd (sp_of (o + blen te + blen tl + blen p + blen (binop_str op0) + blen z) (t1 ++ t2)))
                = sp_of o (te ++ tl ++ p ++ binop_str op0 ++ z ++ t1 ++ t2)).
    { unfold sp_of. cbn [fst snd]. rewrite !blen_app. f_equal. lia. }
    rewrite E. split; [reflexivity|]. cbn [o_expr m_span]. apply node; [|exact Logic.I|].
    { apply at_app. split; [assumption|]. apply at_app. split; assumption. }
    eapply next; [| |exact Pl|]; [lia|lia|].
    eapply next; [| |apply (node (o + blen te + blen tl + blen p) (binop_str op0)); [|reflexivity|]|].
    - len.
    - lia.
    - ats. assumption.
    - constructor. lia.
    - eapply next; [| |exact Pr|]; [lia|lia|]. constructor. len.
  Qed.
  Lemma stretch o t t' m l om op r : m_span m = Some (sp_of o t) -> placed o (o + blen t) (O (XBinary m l om op r)) -> at_ I o (t ++ t') ->
    placed o (o + blen (t ++ t')) (O (XBinary (set_span (sp_of o (t ++ t')) m) l om op r)).
  Proof.
    intros Hs Hp Ha. change (O (XBinary m l om op r)) with (ONode any (m_span m) [O l; ONode (is (binop_str op)) (m_span om) []; O r]) in Hp.
    rewrite Hs in Hp. inversion Hp; subst. apply node; [exact Ha|exact Logic.I|].
    eapply (proj2 (wider I)); [eassumption|lia|]. rewrite blen_app. lia.
  Qed.
  Lemma group_here o te to e ops e' : at_ I o (te ++ to) ->
    here o te e -> ophere (o + blen te) to ops -> pratt_group e ops = Some e' -> here o (te ++ to) (x_upd (set_span (sp_of o (te ++ to))) e').
  Proof.
    intros Ha He Ho E. apply pratt_group_keeps in E. destruct E as (t & rest & -> & Hh & -> & Hn).
    apply ophere_app in Ho. destruct Ho as (t1 & t2 & -> & H1 & H2). subst e.
    assert (Ha' : at_ I o (te ++ t1)) by (rewrite app_assoc in Ha; now apply at_app in Ha).
    pose proof (tree_here t _ _ _ Ha' He H1) as (Hs & Hp).
    split; [rewrite meta_upd; reflexivity|]. destruct t as [a|l op r]; cbn [tail app] in *.
    - destruct rest as [|x rest]; [inversion H2; subst|exfalso; now apply Hn].
      rewrite app_nil_r. rewrite (span_same _ _ Hs). exact Hp.
    - rewrite app_assoc in *. unfold tree_expr in *. fold tree_expr in *. unfold infix_expr in *. destruct op as [om op].
      exact (stretch _ _ _ _ _ _ _ _ Hs Hp Ha).
  Qed.

  (** ** Identifiers, object items *)
  Lemma id_here o x i : at_ I o x -> m_span (i_meta i) = Some (sp_of o x) -> i_name i = x -> placed o (o + blen x) (o_id i).
  Proof. intros Ha Hs Hn. unfold o_id. rewrite Hs. apply node; [exact Ha|exact Hn|constructor; lia]. Qed.
  Lemma gdid_here o t i : gdid u o t i -> at_ I o t -> placed o (o + blen t) (o_id i).
  Proof.
    intros (a & x & z & -> & _ & _ & _ & ->) Ha. ats. eapply (proj1 (wider I)); [apply (id_here (o + blen a) x)|lia|len]; auto.
  Qed.
  Lemma gsid_here o t i : gsid u o t i -> at_ I o t -> placed o (o + blen t) (o_id i).
  Proof.
    intros (x & z & -> & _ & _ & ->) Ha. ats. eapply (proj1 (wider I)); [apply (id_here o x)|lia|len]; auto.
  Qed.
  Lemma gns_here o t l : rep (gns u) o t l -> at_ I o t -> in_order o (o + blen t) (map o_id l).
  Proof.
    induction 1 as [o|o t1 t2 i l (t' & -> & Hi) _ IH]; intros Ha; [constructor; cbn [blen]; lia|]. ats. nums. cbn [map].
    eapply next; [| |exact (gdid_here _ _ _ Hi ltac:(assumption))|]; [lia|lia|].
    eapply (proj2 (wider I)); [apply IH; assumption|len|len].
  Qed.
  Lemma gvars_here o t k v : gvars u o t k v -> at_ I o t -> in_order o (o + blen t) (map o_id (opt_list k) ++ [o_id v]).
  Proof.
    intros [(-> & Hv)|(t1 & t2 & i & -> & -> & Hi & Hv)] Ha; cbn [opt_list map]; [change ([] ++ [o_id v]) with [o_id v]|change ([o_id i] ++ [o_id v]) with [o_id i; o_id v]].
    - eapply next; [| |exact (gdid_here _ _ _ Hv Ha)|constructor]; lia.
    - ats. nums. eapply next; [| |exact (gdid_here _ _ _ Hi ltac:(assumption))|]; [lia|lia|].
      eapply next; [| |exact (gdid_here _ _ _ Hv ltac:(assumption))|constructor]; len.
  Qed.
  Notation OI := (o_item b parse_f64).
  Definition item_in (lo hi : N) (i : xitem) : Prop := forall t, In t (OI i) -> placed lo hi t.
  Lemma item_in_le lo hi lo' hi' i : item_in lo hi i -> lo' <= lo -> hi <= hi' -> item_in lo' hi' i.
  Proof. intros H H1 H2 t Ht. eapply (proj1 (wider I)); eauto. Qed.
  Lemma insert_in lo hi i l : item_in lo hi i -> Forall (item_in lo hi) l -> Forall (item_in lo hi) (items_insert i l).
  Proof.
    intros Hi. induction 1 as [|j l Hj Hl IH]; cbn [items_insert]; [auto|]. destruct (key_eqb _ _); [|auto].
    destruct i as [k a v tm], j as [k' a' v' tm']. constructor; [|assumption]. intros t Ht.
    destruct Ht as [<-|[<-|[]]]; [apply Hj; left|apply Hi; right; left]; reflexivity.
  Qed.
  Lemma fold_in lo hi l : forall acc, Forall (item_in lo hi) l -> Forall (item_in lo hi) acc ->
    Forall (item_in lo hi) (fold_left (fun acc i => items_insert i acc) l acc).
  Proof.
    induction l as [|i l IH]; intros acc Hl Ha; cbn [fold_left]; [assumption|]. inversion Hl; subst. apply IH; [assumption|]. now apply insert_in.
  Qed.
  Lemma here_upd o t e f : here o t e -> (forall m, m_span (f m) = m_span m) -> placed o (o + blen t) (O (x_upd f (x_upd (set_span (sp_of o t)) e))).
  Proof. intros [Hs Hp] Hf. rewrite O_upd by exact Hf. now rewrite (span_same _ _ Hs). Qed.
  Lemma gend_at kw o t a z s : gend kw o t a z s -> exists m, t = lit "%{" ++ m ++ [125].
  Proof. intros (ta & tz & -> & _). exists (tilde_l s ++ ta ++ kw ++ tz ++ tilde_r s). now rewrite <- !app_assoc. Qed.
  Ltac btw := unfold between; match goal with
    | |- exists m, ?a ++ ?r = ?a ++ m ++ ?z => eexists; rewrite ?app_assoc; reflexivity
    | |- _ => eexists; rewrite ?app_assoc; reflexivity end.
  Ltac wide := eapply (proj2 (wider I)); [eassumption|len|len].
  Ltac step := eapply next; [| |eassumption|]; [len|len|].
  Ltac done_ := constructor; len.

  Ltac hat := first [assumption|match goal with H : True -> at_ _ _ _ |- _ => exact (H Logic.I) end].
  Theorem all_here :
    (forall o t e, gexpr o t e -> at_ I o t -> here o t e) /\
    (forall o t e, gdx o t e -> at_ I o t -> placed o (o + blen t) (O e)) /\
    (forall o t e, gpx o t e -> at_ I o t -> placed o (o + blen t) (O e)) /\
    (forall o t l, gargs o t l -> at_ I o t -> in_order o (o + blen t) (map O l)) /\
    (forall o t l, gmore o t l -> at_ I o t -> in_order o (o + blen t) (map O l)) /\
    (forall o t l, gitems o t l -> at_ I o t -> Forall (item_in o (o + blen t)) l) /\
    (forall o t i, gitem o t i -> at_ I o t -> item_in o (o + blen t) i) /\
    (forall o t l, gtrops o t l -> at_ I o t -> in_order o (o + blen t) (map (o_trop b parse_f64) l)) /\
    (forall o t x, gop o t x -> at_ I o t -> placed o (o + blen t) (o_op b parse_f64 x) /\
       match x with XFullSplat _ | XIndex _ => between [91] [93] t | _ => between [46] [] t end) /\
    (forall o t l, gops o t l -> at_ I o t -> ophere o t l) /\
    (forall o t im kv vv c, gintro o t im kv vv c -> at_ I o t ->
       placed o (o + blen t) (ONode (between (lit "for") [58]) (m_span im) (map o_id (opt_list kv) ++ [o_id vv; O c]))) /\
    (forall o t c, gcond o t c -> at_ I o t -> forall c', c = Some c' -> placed o (o + blen t) (o_cond b parse_f64 c')) /\
    (forall o t l, gelems o t l -> at_ I o t -> in_order o (o + blen t) (map (o_elem b parse_f64) l)) /\
    (forall o t e, gelem o t e -> at_ I o t -> placed o (o + blen t) (o_elem b parse_f64 e)) /\
    (forall o t e, gelse o t e -> at_ I o t -> forall e', e = Some e' -> placed o (o + blen t) (o_else b parse_f64 e')).
  Proof.
    apply gexpr_all; intros;
      try match goal with |- here ?o ?t _ => match goal with H : at_ I o t |- _ => assert (Hat : True -> at_ I o t) by (intros _; exact H) end end.
    - (* keyword *) split; [rewrite meta_upd; reflexivity|]. unfold keyword.
      destruct (seqb t (lit "null")) eqn:E1; [|destruct (seqb t (lit "true")) eqn:E2; [|destruct (seqb t (lit "false")) eqn:E3]];
        try (match goal with H : seqb _ _ = true |- _ => apply seqb_eq in H end);
        (apply node; [hat|unfold is; congruence|constructor; lia]).
    - split; [reflexivity|]. apply node; [hat|now left|constructor; lia].
    - split; [reflexivity|]. apply node; [hat| |constructor; lia]. right. eauto 8.
    - split; [reflexivity|]. apply node; [hat|assumption|constructor; lia].
    - (* array *) subst t. ats. nums. fwd. split; [reflexivity|]. apply node; [hat|exists (tl ++ tc ++ tt); now rewrite <- !app_assoc|]. wide.
    - (* object *) subst t. ats. nums. fwd. split; [reflexivity|]. apply node; [hat|exists (ti ++ tt); now rewrite <- !app_assoc|].
      eapply next; [apply N.le_refl| | |constructor; apply N.le_refl]; [lia|]. constructor. intros x Hx.
      change (In x (flat_map OI (fold_left (fun acc i => items_insert i acc) its []))) in Hx.
      apply in_flat_map in Hx. destruct Hx as (i & Hi & Hx).
      match goal with H : Forall (item_in _ _) its |- _ => pose proof (fold_in _ _ _ [] H ltac:(constructor)) as Hf end.
      rewrite Forall_forall in Hf. specialize (Hf _ Hi _ Hx). eapply (proj1 (wider I)); [exact Hf|len|len].
    - (* quoted template *) subst t. ats. nums. fwd. split; [reflexivity|]. apply node; [hat|exists te; reflexivity|]. wide.
    - (* heredoc *) subst t. ats. nums. fwd. split; [reflexivity|]. apply node; [hat| |].
      { exists (opt_char 45 indented ++ d ++ le ++ te ++ tr). now rewrite <- !app_assoc. }
      eapply next; [| |apply node; [eassumption|exact Logic.I|eassumption]|]; [len|len|]. done_.
    - (* parentheses *) subst t. ats. nums. fwd. split; [reflexivity|]. apply node; [hat|exists ti; reflexivity|]. step. done_.
    - (* conditional *) subst t. ats. nums. fwd. split; [reflexivity|]. apply node; [hat|exact Logic.I|].
      match goal with H : here o tc c |- _ => destruct H as [_ Hc] end.
      rewrite <- (O_upd (set_suffix (rw (o + blen tc) z))) in Hc by reflexivity. eapply next; [| |exact Hc|]; [len|len|].
      step. step. done_.
    - (* call *) subst t. ats. nums. fwd. split; [reflexivity|]. apply node; [hat| |].
      { exists (tn ++ tns ++ [40] ++ tl ++ tc ++ tt). now rewrite <- !app_assoc. }
      match goal with |- SpanSpec.in_order _ _ _ (_ ++ _ :: ?r) =>
        change (in_order o (o + blen (tn ++ tns ++ [40] ++ tl ++ tc ++ tt ++ [41])) (map o_id (removelast (i :: ns)) ++ [o_id name] ++ r)) end.
      rewrite (app_assoc (map o_id (removelast (i :: ns)))). apply join with (o + blen tn + blen tns).
      + change [o_id name] with (map o_id [name]). rewrite <- map_app. match goal with H : i :: ns = _ |- _ => rewrite <- H end. cbn [map].
        eapply next; [| |eapply gsid_here; eassumption|eapply gns_here; eassumption]; lia.
      + wide.
    - (* traversal *) subst t. ats. nums. fwd. split; [reflexivity|]. apply node; [hat|exact Logic.I|].
      match goal with H : here o te e |- _ => destruct H as [_ Hc] end.
      rewrite <- (O_upd (set_suffix (rw (o + blen te) z))) in Hc by reflexivity. eapply next; [| |exact Hc|]; [len|len|].
      wide.
    - (* unary *) subst t. ats. nums. fwd. split; [reflexivity|]. apply node; [hat|exists te; now rewrite app_nil_r|].
      assert (Hop : placed o (o + 1) (ONode (is (unop_str op)) (Some (o, o + 1)) [])).
      { replace (o + 1) with (o + blen (unop_str op)) by (now rewrite blen_unop). apply (node o (unop_str op)); [assumption|reflexivity|constructor; lia]. }
      eapply next; [| |exact Hop|]; [len|len|].
      step. done_.
    - (* binary *) subst t. ats. fwd. eapply group_here; [hat|eassumption..].
    - (* for list *) subst t. ats. nums. fwd. split; [reflexivity|]. apply node; [hat|exists (ti ++ tv ++ tc); now rewrite <- !app_assoc|].
      step. step. destruct c as [c|]; [|done_]. eapply next; [| |match goal with H : forall c', Some c = Some c' -> _ |- _ => exact (H _ eq_refl) end|]; [len|len|done_].
    - (* for object *) subst t. ats. nums. fwd. split; [reflexivity|]. apply node; [hat|exists (ti ++ tk ++ lit "=>" ++ tv ++ tc); now rewrite <- !app_assoc|].
      step. step. step. destruct c as [c|]; [|done_]. eapply next; [| |match goal with H : forall c', Some c = Some c' -> _ |- _ => exact (H _ eq_refl) end|]; [len|len|done_].
    - (* grouping *) subst t. ats. nums. fwd. split; [reflexivity|]. apply node; [hat|exists (ti ++ tk ++ lit "=>" ++ tv ++ lit "..." ++ tt); now rewrite <- !app_assoc|].
      step. step. step. done_.
    - subst t. ats. nums. fwd. split; [reflexivity|]. apply node; [hat|exists (ti ++ tk ++ lit "=>" ++ tv ++ lit "..." ++ tt ++ tc); now rewrite <- !app_assoc|].
      step. step. step. destruct c as [cm ce].
      eapply next; [| |match goal with H : forall c', Some _ = Some c' -> _ |- _ => exact (H _ eq_refl) end|]; [len|len|done_].
    - (* decorated *) subst t. ats. nums. fwd. eapply (proj1 (wider I)); [eapply here_upd; [eassumption|reflexivity]|len|len].
    - subst t. ats. nums. fwd. eapply (proj1 (wider I)); [eapply here_upd; [eassumption|reflexivity]|len|len].
    - constructor. len.
    - ats. nums. fwd. cbn [map]. step. wide.
    - constructor. len.
    - ats. nums. fwd. cbn [map]. step. wide.
    - constructor.
    - ats. nums. fwd. constructor.
      + eapply item_in_le; [eassumption|len|len].
      + eapply Forall_impl; [|eassumption]. intros j Hj. eapply item_in_le; [exact Hj|len|len].
    - (* item *) subst t. ats. nums. fwd. intros x [<-|[<-|[]]].
      + assert (Hk : placed (o + blen p) (o + blen p + blen tk) (o_key b parse_f64 (key_upd (around o p (o + blen p + blen tk) zk) (key_upd (set_span (sp_of (o + blen p) tk)) (key_of_expr k))))).
        { match goal with H : here _ tk k |- _ => destruct H as [Hs Hp] end.
          assert (D : (exists m x, k = XVar m x) \/ key_of_expr k = XKExpr k) by (destruct k; eauto).
          destruct D as [(m & x & ->)| ->].
          - cbn [x_meta] in Hs. change (O (XVar m x)) with (ONode (is x) (m_span m) []) in Hp. rewrite Hs in Hp. exact Hp.
          - apply here_upd; [split; assumption|reflexivity]. }
        eapply (proj1 (wider I)); [exact Hk|len|len].
      + eapply (proj1 (wider I)); [eapply here_upd; [eassumption|reflexivity]|len|len].
    - constructor. len.
    - (* traversal operators *) ats. nums. fwd. cbn [map].
      eapply next; [| |apply (node (o + blen p) t1); [assumption|destruct op; assumption|]|]; [len|len| |wide].
      step. done_.
    - (* operators *) subst t. ats. nums. split; [|exists (p ++ [42]); now rewrite app_nil_r].
      eapply (proj1 (wider I)); [apply (node (o + 1 + blen p) [42]); [eassumption|reflexivity|done_]|len|len].
    - subst t. ats. nums. split; [|exists (p ++ x); now rewrite app_nil_r].
      eapply (proj1 (wider I)); [apply (id_here (o + 1 + blen p) x); [eassumption|reflexivity|reflexivity]|len|len].
    - subst t. ats. nums. split; [|exists (p ++ d); now rewrite app_nil_r].
      eapply (proj1 (wider I)); [apply (node (o + 1 + blen p) d); [eassumption| |done_]|len|len].
      split; [assumption|]. split; [|reflexivity]. match goal with H : exists c r, d = _ /\ _ |- _ => destruct H as (? & ? & -> & _) end. discriminate.
    - subst t. ats. nums. split; [|exists (p ++ [42] ++ z); now rewrite <- !app_assoc].
      eapply (proj1 (wider I)); [apply (node (o + 1 + blen p) [42]); [eassumption|reflexivity|done_]|len|len].
    - subst t. ats. nums. fwd. split; [|exists te; reflexivity]. eapply (proj1 (wider I)); [eassumption|len|len].
    - constructor.
    - match goal with H : at_ I o ?t |- _ => assert (Hat : True -> at_ I o t) by (intros _; exact H) end. ats. fwd. constructor; [hat|assumption..].
    - (* intro *) subst t. assert (Hat : True -> at_ I (o + blen p) (lit "for" ++ tv ++ lit "in" ++ tc ++ [58])) by (intros _; now apply at_app in H4).
      ats. nums. fwd. eapply (proj1 (wider I)); [apply node; [hat|exists (tv ++ lit "in" ++ tc); now rewrite <- !app_assoc|]|len|len].
      match goal with |- SpanSpec.in_order _ _ _ (?a ++ [?x; ?y]) => change (a ++ [x; y]) with (a ++ [x] ++ [y]); rewrite (app_assoc a) end.
      apply join with (o + blen p + 3 + blen tv).
      + eapply (proj2 (wider I)); [eapply gvars_here; eassumption|len|len].
      + step. done_.
    - discriminate.
    - (* condition *) subst t. match goal with H : Some ?a = Some ?c |- _ => assert (a = c) by congruence; subst c; clear H end.
      assert (Hat : True -> at_ I (o + blen p) (lit "if" ++ te)) by (intros _; now apply at_app in H3).
      ats. nums. fwd. eapply (proj1 (wider I)); [apply node; [hat|exists te; now rewrite app_nil_r|]|len|len].
      step. done_.
    - constructor. len.
    - ats. nums. fwd. cbn [map]. step. wide.
    - (* elements *) apply node; [hat|assumption|done_].
    - subst t. match goal with H : at_ I o ?t |- _ => assert (Hat : True -> at_ I o t) by (intros _; exact H) end. ats. nums. fwd. apply node; [hat|exists (tilde_l s ++ te ++ tilde_r s); now rewrite <- !app_assoc|]. step. done_.
    - (* if *) subst t ot. match goal with H : at_ I o ?t |- _ => assert (Hat : True -> at_ I o t) by (intros _; exact H) end. ats. nums. fwd.
      match goal with H : gend _ _ te _ _ _ |- _ => apply gend_at in H; destruct H as (m & ->) end.
      apply node; [hat|exists (tilde_l s ++ p ++ lit "if" ++ ti ++ tilde_r s ++ [125] ++ tb ++ tl ++ lit "%{" ++ m); now rewrite <- !app_assoc|].
      step. eapply next; [| |apply node; [eassumption|exact Logic.I|eassumption]|]; [len|len|].
      destruct el as [el|]; [|done_]. eapply next; [| |match goal with H : forall c', Some el = Some c' -> _ |- _ => exact (H _ eq_refl) end|]; [len|len|done_].
    - (* for *) subst t ot. match goal with H : at_ I o ?t |- _ => assert (Hat : True -> at_ I o t) by (intros _; exact H) end. ats. nums. fwd.
      match goal with H : gend _ _ te _ _ _ |- _ => apply gend_at in H; destruct H as (m & ->) end.
      apply node; [hat|exists (tilde_l s ++ p ++ lit "for" ++ tv ++ lit "in" ++ tc ++ tilde_r s ++ [125] ++ tb ++ lit "%{" ++ m); now rewrite <- !app_assoc|].
      match goal with |- SpanSpec.in_order _ _ _ (?a ++ [?x; ?y; ?z]) => change (a ++ [x; y; z]) with (a ++ [x] ++ [y; z]); rewrite (app_assoc a) end.
      apply join with (o + 2 + blen (tilde_l s) + blen p + 3 + blen tv).
      + eapply (proj2 (wider I)); [eapply gvars_here; eassumption|len|len].
      + step. eapply next; [| |apply node; [eassumption|exact Logic.I|eassumption]|]; [len|len|]. done_.
    - discriminate.
    - subst t. match goal with H : Some ?a = Some ?c |- _ => assert (a = c) by congruence; subst c; clear H end. ats. nums. fwd.
      eapply (proj1 (wider I)); [apply node; [eassumption|exact Logic.I|eassumption]|len|len].
  Qed.

  (** ** Structures *)
  Notation gstruct := (gstruct u b parse_f64 pratt_group items_insert).
  Notation gblock := (gblock u b parse_f64 pratt_group items_insert).
  Notation gbody := (gbody u b parse_f64 pratt_group items_insert).
  Notation gstructs := (gstructs u b parse_f64 pratt_group items_insert).
  Notation OS := (o_struct b parse_f64).
  Notation OB := (o_body b parse_f64).
  Lemma OS_upd f x : (forall m, m_span (f m) = m_span m) -> OS (struct_upd f x) = OS x.
  Proof. intros H. destruct x; cbn [struct_upd o_struct]; rewrite ?H; reflexivity. Qed.
  Lemma glabels_here o t l : rep (glabel u) o t l -> at_ I o t -> in_order o (o + blen t) (map o_label l).
  Proof.
    induction 1 as [o|o t1 t2 i l (x & z & -> & _ & Hi) _ IH]; intros Ha; [constructor; cbn [blen]; lia|]. ats. cbn [map].
    assert (Hx : placed o (o + blen x) (o_label i)).
    { destruct Hi as [[_ ->]|[(q & Hq) (s & ->)]]; [apply id_here; auto|]. apply node; [assumption|now exists q|constructor; lia]. }
    eapply next; [| |exact Hx|]; [lia|lia|]. eapply (proj2 (wider I)); [apply IH; assumption|len|len].
  Qed.
  Theorem all_structs_here :
    (forall o t x, gstruct o t x -> at_ I o t -> placed o (o + blen t) (OS x)) /\
    (forall o t x, gblock o t x -> at_ I o t -> placed o (o + blen t) (OB x)) /\
    (forall o t x, gbody o t x -> at_ I o t -> placed o (o + blen t) (OB x) /\
       match x with XBody _ l _ _ => in_order o (o + blen t) (map OS l) end) /\
    (forall ks o t l om, gstructs ks o t l om -> at_ I o t -> in_order o (o + blen t) (map OS l)).
  Proof.
    destruct all_here as (_ & _ & Hgpx & _).
    apply gstruct_all; intros.
    - subst t. match goal with H : at_ I o ?t |- _ => assert (Hat : True -> at_ I o t) by (intros _; exact H) end. ats. nums.
      apply node; [hat|exact Logic.I|].
      eapply next; [| |eapply gsid_here; eassumption|]; [len|len|].
      eapply next; [| |eapply Hgpx; eassumption|]; [len|len|done_].
    - subst t. match goal with H : at_ I o ?t |- _ => assert (Hat : True -> at_ I o t) by (intros _; exact H) end. ats. nums. fwd.
      apply node; [hat|exists (ti ++ tl ++ [123] ++ tb); now rewrite <- !app_assoc|].
      eapply next; [| |eapply gsid_here; eassumption|]; [len|len|].
      apply join with (o + blen ti + blen tl); [eapply glabels_here; eassumption|]. step. done_.
    - constructor. done_.
    - subst t. ats. nums. fwd. constructor. cbn [map].
      match goal with H : SpanSpec.placed _ _ _ (OS x) |- _ => rewrite <- (OS_upd (around o p (o + blen p + blen ta) z)) in H by reflexivity end.
      step. done_.
    - subst t. match goal with H : at_ I o ?t |- _ => assert (Hat : True -> at_ I (o + blen p) (le ++ tb)) by (intros _; now apply at_app in H) end. ats. nums. fwd.
      eapply (proj1 (wider I)); [apply (node (o + blen p) (le ++ tb)); [hat|exact Logic.I|wide]|len|len].
    - subst t. ats. nums. fwd. split; [|wide].
      eapply (proj1 (wider I)); [apply (node o ts); [assumption|exact Logic.I|eassumption]|len|len].
    - done_.
    - ats. nums. fwd. cbn [map].
      match goal with H : SpanSpec.placed _ _ _ (OS x) |- _ => rewrite <- (OS_upd (around o p (o + blen p + blen t1) z)) in H by reflexivity end.
      step. wide.
    - ats. nums. fwd. cbn [map].
      match goal with H : SpanSpec.placed _ _ _ (OS x) |- _ => rewrite <- (OS_upd (around o p (o + blen p + blen t1) z)) in H by reflexivity end.
      step. done_.
  Qed.
End Spans.

(** ** Spans are not changed when the decor becomes text *)
Section Map.
  Context (b : build) (parse_f64 : str -> f64) (f g : raw -> raw).
  Lemma oid_map i k : o_id (did_map k i) = o_id i. Proof. reflexivity. Qed.
  Lemma oids_map l k : map o_id (map (did_map k) l) = map o_id l. Proof. rewrite map_map. reflexivity. Qed.
  Lemma ooid_map l k : map o_id (opt_list (option_map (did_map k) l)) = map o_id (opt_list l). Proof. destruct l; reflexivity. Qed.
  Lemma list_same {A B} (h : A -> B) (mp : A -> A) l : Forall (fun x => h (mp x) = h x) l -> map h (map mp l) = map h l.
  Proof. induction 1 as [|x l H _ IH]; cbn; congruence. Qed.
  Lemma flat_same {A B} (h : A -> list B) (mp : A -> A) l : Forall (fun x => h (mp x) = h x) l -> flat_map h (map mp l) = flat_map h l.
  Proof. induction 1 as [|x l H _ IH]; cbn; congruence. Qed.
  Notation opts h o := (match o with Some x => [h x] | None => [] end).
  Lemma o_for m im kv vv coll key val g0 cond : o_expr b parse_f64 (XFor m im kv vv coll key val g0 cond) =
    ONode (match key with None => between [91] [93] | Some _ => between [123] [125] end) (m_span m)
      (ONode (between (lit "for") [58]) (m_span im) (map o_id (opt_list kv) ++ [o_id vv; o_expr b parse_f64 coll])
       :: opts (o_expr b parse_f64) key ++ o_expr b parse_f64 val :: opts (o_cond b parse_f64) cond).
  Proof. reflexivity. Qed.
  Lemma o_if sp p c t s els ep et es : o_elem b parse_f64 (XIfD sp p c t s els ep et es) =
    ONode (between (lit "%{") [125]) sp (o_expr b parse_f64 c :: o_tpl b parse_f64 t :: opts (o_else b parse_f64) els).
  Proof. reflexivity. Qed.
  Notation P := (fun h mp => forall x, h b parse_f64 (mp f g x) = h b parse_f64 x).
  Lemma o_map : P o_expr x_map /\ P o_cond cond_map /\ P o_item item_map /\ P o_key key_map /\ P o_trop trop_map /\ P o_op op_map /\
    P o_tpl tpl_map /\ P o_elem elem_map /\ P o_else else_map.
  Proof.
    apply xexpr_all; intros; try reflexivity.
    - change (ONode (between [91] [93]) (m_span m) (map (o_expr b parse_f64) (map (x_map f g) l)) = ONode (between [91] [93]) (m_span m) (map (o_expr b parse_f64) l)).
      apply list_same in H. now rewrite H.
    - change (ONode (between [123] [125]) (m_span m) [OBag (flat_map (o_item b parse_f64) (map (item_map f g) l))] = ONode (between [123] [125]) (m_span m) [OBag (flat_map (o_item b parse_f64) l)]).
      apply flat_same in H. now rewrite H.
    - change (ONode (between [34] [34]) (m_span m) (map (o_elem b parse_f64) (map (elem_map f g) l)) = ONode (between [34] [34]) (m_span m) (map (o_elem b parse_f64) l)).
      apply list_same in H. now rewrite H.
    - change (ONode (between (lit "<<") d) (m_span m) [o_tpl b parse_f64 (tpl_map f g t)] = ONode (between (lit "<<") d) (m_span m) [o_tpl b parse_f64 t]). now rewrite H.
    - change (ONode (between [40] [41]) (m_span m) [o_expr b parse_f64 (x_map f g e)] = ONode (between [40] [41]) (m_span m) [o_expr b parse_f64 e]). now rewrite H.
    - change (ONode any (m_span m) [o_expr b parse_f64 (x_map f g a); o_expr b parse_f64 (x_map f g b0); o_expr b parse_f64 (x_map f g c)]
              = ONode any (m_span m) [o_expr b parse_f64 a; o_expr b parse_f64 b0; o_expr b parse_f64 c]). congruence.
    - change (ONode (between [] [41]) (m_span m) (map o_id (map (did_map f) ns) ++ o_id n :: map (o_expr b parse_f64) (map (x_map f g) l))
              = ONode (between [] [41]) (m_span m) (map o_id ns ++ o_id n :: map (o_expr b parse_f64) l)).
      apply list_same in H. now rewrite oids_map, H.
    - change (ONode any (m_span m) (o_expr b parse_f64 (x_map f g e) :: map (o_trop b parse_f64) (map (trop_map f g) l))
              = ONode any (m_span m) (o_expr b parse_f64 e :: map (o_trop b parse_f64) l)). apply list_same in H0. now rewrite H, H0.
    - change (ONode (between (unop_str o) []) (m_span m) [ONode (is (unop_str o)) s []; o_expr b parse_f64 (x_map f g e)]
              = ONode (between (unop_str o) []) (m_span m) [ONode (is (unop_str o)) s []; o_expr b parse_f64 e]). congruence.
    - change (ONode any (m_span m) [o_expr b parse_f64 (x_map f g l); ONode (is (binop_str o)) (m_span om) []; o_expr b parse_f64 (x_map f g r)]
              = ONode any (m_span m) [o_expr b parse_f64 l; ONode (is (binop_str o)) (m_span om) []; o_expr b parse_f64 r]). congruence.
    - match goal with |- _ (x_map f g (XFor ?m ?im ?kv ?vv ?c ?k ?v ?gr ?co)) = _ =>
        change (x_map f g (XFor m im kv vv c k v gr co)) with
          (XFor (meta_map f m) (meta_map f im) (option_map (did_map f) kv) (did_map f vv) (x_map f g c) (option_map (x_map f g) k) (x_map f g v) gr (option_map (cond_map f g) co)) end.
      rewrite !o_for, ooid_map, oid_map, H, H1. cbn [meta_map m_span].
      destruct k as [k|], co as [co|]; cbn [option_map]; cbn [oall] in H0, H2; rewrite ?H0, ?H2; reflexivity.
    - change (ONode (between (lit "if") []) (m_span m) [o_expr b parse_f64 (x_map f g e)] = ONode (between (lit "if") []) (m_span m) [o_expr b parse_f64 e]). congruence.
    - change ([o_key b parse_f64 (key_map f g k); o_expr b parse_f64 (x_map f g v)] = [o_key b parse_f64 k; o_expr b parse_f64 v]). congruence.
    - exact H.
    - destruct o; try reflexivity.
      change (ONode (between [91] [93]) (m_span m) [o_op b parse_f64 (op_map f g (XIndex e))] = ONode (between [91] [93]) (m_span m) [o_op b parse_f64 (XIndex e)]).
      now rewrite H.
    - exact H.
    - change (ONode any sp (map (o_elem b parse_f64) (map (elem_map f g) es)) = ONode any sp (map (o_elem b parse_f64) es)). apply list_same in H. now rewrite H.
    - change (ONode (between (lit "${") [125]) sp [o_expr b parse_f64 (x_map f g e)] = ONode (between (lit "${") [125]) sp [o_expr b parse_f64 e]). congruence.
    - change (o_elem b parse_f64 (XIfD sp (f p) (x_map f g c) (tpl_map f g t) s (option_map (else_map f g) el) (f ep) (f et) es) = o_elem b parse_f64 (XIfD sp p c t s el ep et es)).
      rewrite !o_if, H, H0. destruct el as [el|]; cbn [option_map]; cbn [oall] in H1; rewrite ?H1; reflexivity.
    - change (ONode (between (lit "%{") [125]) sp (map o_id (opt_list (option_map (did_map f) k)) ++ [o_id v; o_expr b parse_f64 (x_map f g c); o_tpl b parse_f64 (tpl_map f g t)])
              = ONode (between (lit "%{") [125]) sp (map o_id (opt_list k) ++ [o_id v; o_expr b parse_f64 c; o_tpl b parse_f64 t])).
      now rewrite ooid_map, H, H0.
    - exact H.
  Qed.
  Lemma ob_map : (forall x, o_struct b parse_f64 (struct_map f g x) = o_struct b parse_f64 x) /\
    (forall x, o_body b parse_f64 (body_map f g x) = o_body b parse_f64 x).
  Proof.
    destruct o_map as [Hx _]. apply xbody_all; intros.
    - change (ONode any (m_span m) [o_id k; o_expr b parse_f64 (x_map f g v)] = ONode any (m_span m) [o_id k; o_expr b parse_f64 v]). now rewrite Hx.
    - change (ONode (between [] [125]) (m_span m) (o_id i :: map o_label (map (label_map f) l) ++ [o_body b parse_f64 (body_map f g b0)])
              = ONode (between [] [125]) (m_span m) (o_id i :: map o_label l ++ [o_body b parse_f64 b0])).
      rewrite H. assert (E : map o_label (map (label_map f) l) = map o_label l) by (apply list_same, Forall_forall; intros [j|mj sj] _; reflexivity).
      now rewrite E.
    - apply list_same in H. destruct o;
        [change (OGroup (map (o_struct b parse_f64) (map (struct_map f g) l)) = OGroup (map (o_struct b parse_f64) l))
        |change (ONode any (m_span m) (map (o_struct b parse_f64) (map (struct_map f g) l)) = ONode any (m_span m) (map (o_struct b parse_f64) l))]; now rewrite H.
  Qed.
End Map.

(** ** The public functions *)
Section Facts.
  Context (u : unicode) (b : build) (pf : str -> f64).
  Theorem body_spans (I : str) y : parse_body u b pf I = Parsed y -> placed I 0 (blen I) (o_body b pf y).
  Proof.
    intros E. assert (E2 := E). unfold parse_body, parse_body_with in E2. apply finish_inv in E2. destruct E2 as (x & Ex & _).
    pose proof (raw_body_spec u b pf I) as S. unfold raw_body in S. rewrite Ex in S.
    destruct (body_despan_ok u b pf I x Ex) as (E3 & _). rewrite E in E3. injection E3 as ->.
    rewrite (proj2 (ob_map b pf (raw_despan I) ParseSpec.leave)). destruct (all_structs_here u b pf I) as (_ & _ & H & _).
    exact (proj1 (H _ _ _ S (at_all I))).
  Qed.
  Theorem expr_spans (I : str) y : parse_expr u b pf I = Parsed y -> placed I 0 (blen I) (o_expr b pf y) /\ m_span (x_meta y) = Some (0, blen I).
  Proof.
    intros E. assert (E2 := E). unfold parse_expr, parse_expr_with in E2. apply finish_inv in E2. destruct E2 as (x & Ex & _).
    pose proof (raw_expr_spec u b pf I) as S. unfold raw_expr in S. rewrite Ex in S.
    destruct (expr_despan_ok u b pf I x Ex) as (E3 & _). rewrite E in E3. injection E3 as ->.
    rewrite (proj1 (o_map b pf (raw_despan I) ParseSpec.leave)). destruct (all_here u b pf I) as (H & _).
    destruct (H _ _ _ S (at_all I)) as [Hs Hp]. split; [exact Hp|]. rewrite meta_X. exact Hs.
  Qed.
  Theorem tpl_spans (I : str) y : parse_template u b pf I = Parsed y -> placed I 0 (blen I) (o_template b pf y).
  Proof.
    intros E. assert (E2 := E). unfold parse_template, parse_tpl_with in E2. apply finish_inv in E2. destruct E2 as (x & Ex & _).
    pose proof (raw_tpl_spec u b pf I) as S. unfold raw_tpl in S. rewrite Ex in S. destruct S as (es & -> & S).
    destruct (tpl_despan_ok u b pf I _ Ex) as (E3 & _). rewrite E in E3. injection E3 as ->.
    constructor. destruct (o_map b pf (raw_despan I) ParseSpec.leave) as (_ & _ & _ & _ & _ & _ & _ & Hm & _).
    rewrite (list_same _ _ _ (proj2 (Forall_forall _ _) (fun e _ => Hm e))).
    destruct (all_here u b pf I) as (_ & _ & _ & _ & _ & _ & _ & _ & _ & _ & _ & _ & H & _). exact (H _ _ _ S (at_all I)).
  Qed.
End Facts.
