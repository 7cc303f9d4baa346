From Coq Require Import NArith Bool List Lia Sorting.Sorted.
From Verif Require Import Str NumberModel PrimModel EAst EAstInd ParseSpec ParseFacts VisitModel VisitSpec.
Import ListNotations.
Open Scope nat_scope.

Section W.
  Context {S : Type} (hook : node -> S -> S * bool).
  Notation walk := (Walk children' hook).
  Notation walks := (Walks children' hook).
  Lemma walk_call n k s : (forall s, walks (children' n) s (k s)) -> walk n s (call hook n k s).
  Proof.
    intros H. unfold call. destruct (hook n s) as [s1 [|]] eqn:E; [|now constructor].
    econstructor; [exact E|apply H].
  Qed.
  Lemma walk_leaf n s : children' n = [] -> walk n s (leaf hook n s).
  Proof. intros E. apply walk_call. intros s'. rewrite E. constructor. Qed.
  Lemma walks1 n k s : walk n s (k s) -> walks [n] s (k s).
  Proof. intros H. econstructor; [exact H|constructor]. Qed.
  Lemma walks_app l l' s s1 s2 : walks l s s1 -> walks l' s1 s2 -> walks (l ++ l') s s2.
  Proof. induction 1 as [|n l s a b H _ IH]; [auto|]. intros H'. cbn [app]. econstructor; eauto. Qed.
  Lemma walks_each {A} (f : A -> S -> S) (g : A -> node) l s :
    Forall (fun x => forall s, walk (g x) s (f x s)) l -> walks (map g l) s (each f l s).
  Proof.
    unfold each. intros H. revert s. induction H as [|x l H _ IH]; intros s; [constructor|].
    cbn [map fold_left]. econstructor; [apply H|apply IH].
  Qed.
  Lemma walks_opt {A} (f : A -> S -> S) (g : A -> node) o s :
    oall (fun x => forall s, walk (g x) s (f x s)) o ->
    walks (match o with Some x => [g x] | None => [] end) s (on_opt f o s).
  Proof. destruct o; intros H; cbn in *; [econstructor; [apply H|constructor]|constructor]. Qed.
  Lemma walk_ident i s : walk (NIdent i) s (v_ident hook i s).
  Proof. now apply walk_leaf. Qed.
  Lemma walk_idents o s : walks (idents o) s (on_opt (v_ident hook) o s).
  Proof. apply (walks_opt (v_ident hook) NIdent). destruct o; cbn; auto using walk_ident. Qed.
  Lemma walk_ident_list l s : walks (map NIdent l) s (each (v_ident hook) l s).
  Proof. apply walks_each. apply Forall_forall. intros x _. apply walk_ident. Qed.

  Definition We e := forall s, walk (NExpr e) s (v_expr hook e s).
  Definition Wc e := forall s, walk (NForCond e) s (v_cond hook e s).
  Definition Wi e := forall s, walk (match e with XItem k _ _ _ => NObjectItem k e end) s (v_item hook e s).
  Definition Wk e := forall s, walk (NObjectKey e) s (v_key hook e s).
  Definition Wt e := forall s, walk (NTraversalOperator e) s (v_trop hook e s).
  Definition Wo o := forall m s, walks (children' (NTraversalOperator (XTrop m o))) s (v_op hook o s).
  Definition Wtp e := forall s, walk (NTemplate e) s (v_template hook e s).
  Definition Wel e := forall s, walk (NElement e) s (v_element hook e s).
  Definition Wls e := forall s, walk (NElseTemplateExpr e) s (v_else hook e s).

  Ltac st := first
    [ apply walk_ident | apply walk_idents | apply walk_ident_list
    | match goal with H : _ |- walk _ _ _ => apply H end
    | apply walks_each; assumption | apply (walks_opt (v_expr hook) NExpr); assumption
    | apply (walks_opt (v_cond hook) NForCond); assumption | apply (walks_opt (v_else hook) NElseTemplateExpr); assumption ].
  Lemma visits_all : (forall e, We e) /\ (forall e, Wc e) /\ (forall e, Wi e) /\ (forall e, Wk e) /\ (forall e, Wt e) /\
    (forall e, Wo e) /\ (forall e, Wtp e) /\ (forall e, Wel e) /\ (forall e, Wls e).
  Proof.
    apply xexpr_all; unfold We, Wc, Wi, Wk, Wt, Wo, Wtp, Wel, Wls; intros;
    try (apply walk_call; intros); cbn [children' children];
    try (apply (walks1 _ (fun s => _)));
    try (first [apply walk_ident | apply walk_leaf; reflexivity | match goal with H : _ |- walk _ _ _ => apply H end]);
    try (apply walk_call; intros; cbn [children' children]; try st).
    all: fold (v_expr hook) (v_cond hook) (v_item hook) (v_key hook) (v_trop hook) (v_op hook) (v_template hook) (v_element hook) (v_else hook).
    all: try st.
    all: try (apply (walks1 _ (fun s => _)); try st).
    - econstructor; [st|]. econstructor; [st|]. apply (walks1 _ (v_expr hook c)). st.
    - econstructor.
      + apply walk_call. intros. cbn [children' children]. eapply walks_app; [st|]. apply (walks1 _ (v_ident hook n)). st.
      + apply (walks1 _ (fun s => _)). apply walk_call. intros. cbn [children' children]. st.
    - econstructor; st.
    - econstructor; [now apply walk_leaf|]. apply (walks1 _ (v_expr hook e)). st.
    - econstructor; [st|]. econstructor; [now apply walk_leaf|]. apply (walks1 _ (v_expr hook r)). st.
    - econstructor.
      + apply walk_call. intros. cbn [children' children]. eapply walks_app; [st|]. econstructor; [st|].
        apply (walks1 _ (v_expr hook c)). st.
      + eapply walks_app; [st|]. econstructor; [st|]. st.
    - econstructor; [st|]. apply (walks1 _ (fun s => _)). apply walk_call. intros. cbn [children' children].
      apply (walks1 _ (v_expr hook v)). st.
    - match goal with H : forall m s, walks _ s _ |- _ => exact (H m _) end.
    - apply walk_call. intros. cbn [children' children]. econstructor.
      + apply walk_call. intros. cbn [children' children]. econstructor; [st|]. apply (walks1 _ (v_template hook t)). st.
      + eapply walks_app; [st|]. apply (walks1 _ (leaf hook _)). now apply walk_leaf.
    - apply walk_call. intros. cbn [children' children]. econstructor.
      + apply walk_call. intros. cbn [children' children]. eapply walks_app; [st|]. econstructor; [st|].
        apply (walks1 _ (v_template hook t)). st.
      + apply (walks1 _ (leaf hook _)). now apply walk_leaf.
  Qed.
  Lemma visits_expr e : We e.
  Proof. apply visits_all. Qed.
  Lemma visits_label l s : walk (NBlockLabel l) s (v_label hook l s).
  Proof.
    apply walk_call. intros s'. destruct l as [i|m x]; cbn [children' children]; apply (walks1 _ (fun s => _));
      [apply walk_ident|now apply walk_leaf].
  Qed.
  Lemma visits_bodies : (forall x s, walk (NStructure x) s (v_struct hook x s)) /\ (forall x s, walk (NBody x) s (v_body hook x s)).
  Proof.
    apply xbody_all; intros; apply walk_call; intros; cbn [children' children].
    - apply (walks1 _ (fun s => _)). apply walk_call. intros. cbn [children' children].
      econstructor; [apply walk_ident|]. apply (walks1 _ (v_expr hook v)). apply visits_expr.
    - apply (walks1 _ (fun s => _)). apply walk_call. intros. cbn [children' children].
      econstructor; [apply walk_ident|]. eapply walks_app; [apply walks_each|].
      { apply Forall_forall. intros x _. apply visits_label. }
      apply (walks1 _ (v_body hook b)). apply H.
    - apply walks_each. assumption.
  Qed.
End W.

Scheme Walk_ind' := Induction for Walk Sort Prop with Walks_ind' := Induction for Walks Sort Prop.
Combined Scheme Walk_both from Walk_ind', Walks_ind'.

(** Without [for] directives the two notions of parts agree. *)
Lemma walk_full {S} (hook : node -> S -> S * bool) :
  (forall n s s', Walk children' hook n s s' -> no_for_directive n -> Walk children hook n s s') /\
  (forall l s s', Walks children' hook l s s' -> Forall no_for_directive l -> Walks children hook l s s').
Proof.
  apply Walk_both with (P := fun n s s' _ => no_for_directive n -> Walk children hook n s s')
                       (P0 := fun l s s' _ => Forall no_for_directive l -> Walks children hook l s s').
  - intros n s s' E _. now constructor.
  - intros n s s1 s' E _ IH H.
    assert (Ec : children' n = children n).
    { specialize (H n (Below_self _ n)). destruct n; try reflexivity. contradiction. }
    econstructor 2; [exact E|]. rewrite <- Ec. apply IH. rewrite Ec. apply Forall_forall.
    intros c Hc m Hm. apply H. econstructor; eassumption.
  - intros s _. constructor.
  - intros n l s s1 s' _ IH1 _ IH2 H. inversion H; subst. econstructor; eauto.
Qed.

Lemma walk_det {S} ch (hook : node -> S -> S * bool) :
  (forall n s s', Walk ch hook n s s' -> forall s'', Walk ch hook n s s'' -> s'' = s') /\
  (forall l s s', Walks ch hook l s s' -> forall s'', Walks ch hook l s s'' -> s'' = s').
Proof.
  apply Walk_both with (P := fun n s s' _ => forall s'', Walk ch hook n s s'' -> s'' = s')
                       (P0 := fun l s s' _ => forall s'', Walks ch hook l s s'' -> s'' = s').
  - intros n s s' E s'' H. inversion H; subst; congruence.
  - intros n s s1 s' E _ IH s'' H. inversion H; subst; [congruence|]. replace s2 with s1 in * by congruence. auto.
  - intros s s'' H. now inversion H.
  - intros n l s s1 s' _ IH1 _ IH2 s'' H. inversion H; subst. apply IH2. apply IH1 in H2. now subst.
Qed.

(** ** Positions *)
Definition seen {S} (hook : node -> S -> S * bool) (l : list (list nat * node)) (s : S) : S :=
  fold_left (fun s a => fst (hook (snd a) s)) l s.
Definition shift (i : nat) (l : list (list nat * node)) := map (fun a => (i :: fst a, snd a)) l.
Lemma seen_shift {S} (hook : node -> S -> S * bool) i l s : seen hook (shift i l) s = seen hook l s.
Proof. unfold seen, shift. revert s. induction l as [|a l IH]; intros s; [reflexivity|]. cbn. apply IH. Qed.
Lemma seen_app {S} (hook : node -> S -> S * bool) l l' s : seen hook (l ++ l') s = seen hook l' (seen hook l s).
Proof. apply fold_left_app. Qed.
Notation sorted := (StronglySorted (fun a b : list nat * node => before (fst a) (fst b))).
Lemma sorted_shift i l : sorted l -> sorted (shift i l).
Proof.
  induction 1 as [|a l _ IH H]; cbn; constructor; [exact IH|]. apply Forall_forall. intros b Hb.
  apply in_map_iff in Hb as (c & <- & Hc). cbn. apply Before_in. rewrite Forall_forall in H. now apply H.
Qed.
Lemma sorted_app l l' : sorted l -> sorted l' -> (forall a b, In a l -> In b l' -> before (fst a) (fst b)) -> sorted (l ++ l').
Proof.
  induction 1 as [|a l _ IH H]; intros H' Hb; [exact H'|]. cbn. constructor.
  - apply IH; [exact H'|]. intros x y Hx Hy. apply Hb; [now right|exact Hy].
  - apply Forall_app. split; [exact H|]. apply Forall_forall. intros x Hx. apply Hb; [now left|exact Hx].
Qed.
Lemma positions {S} ch (hook : node -> S -> S * bool) (Hgo : forall n s, snd (hook n s) = true) :
  (forall n s s', Walk ch hook n s s' -> exists l, enumerates ch n l /\ s' = seen hook l s) /\
  (forall ns s s', Walks ch hook ns s s' -> forall k, exists l, s' = seen hook l s /\ sorted l /\
    forall p m, In (p, m) l <-> exists i x q, p = k + i :: q /\ nth_error ns i = Some x /\ at_pos ch x q = Some m).
Proof.
  apply Walk_both with (P := fun n s s' _ => exists l, enumerates ch n l /\ s' = seen hook l s)
    (P0 := fun ns s s' _ => forall k, exists l, s' = seen hook l s /\ sorted l /\
      forall p m, In (p, m) l <-> exists i x q, p = k + i :: q /\ nth_error ns i = Some x /\ at_pos ch x q = Some m).
  - intros n s s' E. specialize (Hgo n s). rewrite E in Hgo. discriminate.
  - intros n s s1 s' E _ IH. destruct (IH 0) as (l & -> & Hs & Hl). exists (([], n) :: l). repeat split.
    + constructor; [exact Hs|]. apply Forall_forall. intros [p m] Hp. apply Hl in Hp as (i & x & q & -> & _). constructor.
    + intros [[= <- <-]|Hp]; [reflexivity|]. apply Hl in Hp as (i & x & q & -> & Ex & Em). cbn. now rewrite Ex.
    + destruct p as [|i p]; cbn [at_pos]; [intros [= ->]; now left|].
      destruct (nth_error (ch n) i) as [x|] eqn:Ex; [|discriminate]. intros Em. right. apply Hl. now exists i, x, p.
    + cbn [seen fold_left snd]. now rewrite E.
  - intros s k. exists []. repeat split; [constructor|intros []|]. intros (i & x & q & _ & Ex & _). now destruct i.
  - intros n ns s s1 s' _ (l1 & [Hs1 Hl1] & ->) _ IH k. destruct (IH (1 + k)) as (l2 & -> & Hs2 & Hl2).
    exists (shift k l1 ++ l2). repeat split.
    + now rewrite seen_app, seen_shift.
    + apply sorted_app; [now apply sorted_shift|exact Hs2|]. intros a [p m] Ha Hb.
      apply in_map_iff in Ha as (c & <- & _). apply Hl2 in Hb as (i & x & q & -> & _). cbn [fst]. constructor. lia.
    + intros Hp. apply in_app_or in Hp as [Hp|Hp].
      * apply in_map_iff in Hp as ([q m'] & [= <- <-] & Hc). apply Hl1 in Hc. exists 0, n, q. split; [f_equal; lia|]. auto.
      * apply Hl2 in Hp as (i & x & q & -> & Ex & Em). exists (1 + i), x, q. split; [f_equal; lia|]. auto.
    + intros (i & x & q & -> & Ex & Em). apply in_or_app. destruct i as [|i]; cbn in Ex.
      * injection Ex as ->. left. apply in_map_iff. exists (q, m). split; [cbn; do 2 f_equal; lia|]. now apply Hl1.
      * right. apply Hl2. exists i, x, q. split; [f_equal; lia|]. auto.
Qed.

(** ** [VisitMut] *)
Lemma each_mut_id {S A} (f : A -> S -> S * A) l s : Forall (fun x => forall s, f x s = (s, x)) l -> each_mut f l s = (s, l).
Proof. induction 1 as [|x l H _ IH]; [reflexivity|]. cbn [each_mut]. now rewrite H, IH. Qed.
Lemma opt_mut_id {S A} (f : A -> S -> S * A) o s : oall (fun x => forall s, f x s = (s, x)) o -> opt_mut f o s = (s, o).
Proof. destruct o; cbn; [|reflexivity]. intros H. now rewrite H. Qed.
Section D.
  Context {S : Type}.
  Notation dh := (default_hooks S).
  Definition Ie e := forall s, m_expr dh e s = (s, e).
  Lemma mut_idents l s : each_mut (h_ident dh) l s = (s, l).
  Proof. apply each_mut_id. apply Forall_forall. reflexivity. Qed.
  Lemma mut_ident_o o s : opt_mut (h_ident dh) o s = (s, o).
  Proof. now destruct o. Qed.
  Lemma mut_default_all : (forall e, Ie e) /\ (forall e s, m_cond dh e s = (s, e)) /\ (forall e s, m_item dh e s = (s, e)) /\
    (forall e : xkey, True) /\
    (forall e s, m_trop dh e s = (s, e)) /\ (forall e s, m_op dh e s = (s, e)) /\ (forall e s, m_template dh e s = (s, e)) /\
    (forall e s, m_element dh e s = (s, e)) /\ (forall e s, m_else dh e s = (s, e)).
  Proof.
    apply xexpr_all; unfold Ie; intros; try exact I; cbn;
    fold (m_expr dh) (m_cond dh) (m_item dh) (m_trop dh) (m_op dh) (m_template dh) (m_element dh) (m_else dh);
    repeat first [ rewrite each_mut_id by assumption | rewrite opt_mut_id by assumption
      | rewrite mut_idents | rewrite mut_ident_o | match goal with H : forall s, _ = (s, _) |- _ => rewrite H end ]; try reflexivity.
  Qed.
End D.
Lemma mut_default_body {S} :
  (forall x s, m_struct (default_hooks S) x s = (s, x)) /\ (forall x s, m_body (default_hooks S) x s = (s, x)).
Proof.
  apply xbody_all; intros; cbn -[m_expr h_ident each_mut]; fold (m_struct (default_hooks S)) (m_body (default_hooks S)).
  - now rewrite (proj1 mut_default_all).
  - cbn [h_ident default_hooks]. rewrite each_mut_id, H; [reflexivity|]. apply Forall_forall. now intros [?|? ?].
  - now rewrite each_mut_id.
Qed.

Section K.
  Context {S : Type} (h : hooks S).
  Lemma each_mut_keep {A B} (f : A -> S -> S * A) (g : A -> B) l s :
    Forall (fun x => forall s, g (snd (f x s)) = g x) l -> map g (snd (each_mut f l s)) = map g l.
  Proof.
    intros H. revert s. induction H as [|x l H _ IH]; intros s; [reflexivity|]. cbn [each_mut].
    specialize (H s). destruct (f x s) as [s1 x']. specialize (IH s1). destruct (each_mut f l s1) as [s2 l'].
    cbn in *. now rewrite H, IH.
  Qed.
  Lemma each_mut_in {A} (f : A -> S -> S * A) l s y : In y (snd (each_mut f l s)) -> exists x s', In x l /\ y = snd (f x s').
  Proof.
    revert s. induction l as [|x l IH]; intros s; [intros []|]. cbn [each_mut].
    destruct (f x s) as [s1 x'] eqn:E. specialize (IH s1). destruct (each_mut f l s1) as [s2 l'] eqn:El. cbn in *.
    intros [<-|Hy]; [exists x, s; rewrite E; auto|]. destruct (IH Hy) as (z & s' & Hz & Ez). eauto.
  Qed.
  Definition sname (x : xstruct) : option str := match x with XAttr _ k _ => Some (i_name k) | _ => None end.
  Lemma attr_names_snames l l' : map sname l = map sname l' -> attr_names l = attr_names l'.
  Proof.
    revert l'. induction l as [|x l IH]; intros [|x' l']; try discriminate; [reflexivity|]. cbn [map].
    intros [= Ex El]. apply IH in El. destruct x as [m k v|m i ls b], x' as [m' k' v'|m' i' ls' b']; try discriminate Ex;
    unfold attr_names in *; cbn [flat_map app sname] in *; [injection Ex as ->|]; now rewrite El.
  Qed.
  Lemma m_struct_name x s : sname (snd (m_struct h x s)) = sname x.
  Proof.
    destruct x; cbn [m_struct]; fold (m_body h).
    - now destruct (m_expr h v s).
    - destruct (h_ident h ident s) as [s1 ?]. destruct (each_mut (m_label h) labels s1) as [s2 ?]. now destruct (m_body h body s2).
  Qed.
  Lemma m_body_keys m l o n s : exists l', snd (m_body h (XBody m l o n) s) = XBody m l' o n /\
    attr_names l' = attr_names l /\ (forall y, In y l' -> exists x s', In x l /\ y = snd (m_struct h x s')).
  Proof.
    cbn [m_body]; fold (m_struct h). destruct (each_mut (m_struct h) l s) as [s' l'] eqn:E. exists l'. split; [reflexivity|].
    replace l' with (snd (each_mut (m_struct h) l s)) by now rewrite E. split; [|intros y; apply each_mut_in].
    apply attr_names_snames. apply each_mut_keep. apply Forall_forall. intros x _ s0. apply m_struct_name.
  Qed.
  Lemma m_body_unique : (forall x s, sub_unique x -> sub_unique (snd (m_struct h x s))) /\
    (forall b s, unique_keys b -> unique_keys (snd (m_body h b s))).
  Proof.
    apply xbody_all.
    - intros m k v s _. cbn. now destruct (m_expr h v s).
    - intros m i l b IH s Hu. cbn [m_struct]; fold (m_body h).
      destruct (h_ident h i s) as [s1 ?]. destruct (each_mut (m_label h) l s1) as [s2 ?]. specialize (IH s2 Hu).
      now destruct (m_body h b s2).
    - intros m l o n IH s Hu. apply unique_inv in Hu as [H1 H2]. destruct (m_body_keys m l o n s) as (l' & -> & En & Hin).
      apply unique_body; [now rewrite En|]. apply Forall_forall. intros y Hy. destruct (Hin y Hy) as (x & s' & Hx & ->).
      rewrite Forall_forall in IH, H2. now apply IH, H2.
  Qed.
  Lemma m_items_keys l s : map item_key (snd (each_mut (m_item h) l s)) = map item_key l.
  Proof.
    apply each_mut_keep. apply Forall_forall. intros [k a v t] _ s0. cbn. fold (m_expr h). now destruct (m_expr h v s0).
  Qed.
End K.
