(** * Visiting a tree mutably: proofs *)
From Coq Require Import NArith Bool List.
From Verif Require Import Str NumberModel PrimModel EAst EAstInd VisitModel VisitSpec.
Import ListNotations.

Section W.
  Context {S : Type} (h : hooks S) (keep : forall e s, h_after_expr h e s = (s, e)).
  Notation RW := (Walk children_mut (replace h)).
  Notation RWs := (Walks children_mut (replace h)).
  Notation LW := (Walk children_mut leaves).
  Notation LWs := (Walks children_mut leaves).
  Definition mw (n n' : node) (s s' : S) : Prop := forall l, exists l', RW n (s, l) (s', l') /\ LW n' l l'.
  Definition mws (ns ns' : list node) (s s' : S) : Prop := forall l, exists l', RWs ns (s, l) (s', l') /\ LWs ns' l l'.
  Lemma mws_nil s : mws [] [] s s.
  Proof. intros l. exists l. split; constructor. Qed.
  Lemma mws_cons n n' ns ns' s s1 s2 : mw n n' s s1 -> mws ns ns' s1 s2 -> mws (n :: ns) (n' :: ns') s s2.
  Proof. intros H1 H2 l. destruct (H1 l) as (l1 & A & B). destruct (H2 l1) as (l2 & C & D). exists l2. split; econstructor; eassumption. Qed.
  Lemma walks_app {T} (k : node -> T -> T * bool) a c s s1 s2 : Walks children_mut k a s s1 -> Walks children_mut k c s1 s2 -> Walks children_mut k (a ++ c) s s2.
  Proof. induction 1 as [|n l s x y H _ IH]; [auto|]. intros H'. cbn [app]. econstructor; eauto. Qed.
  Lemma mws_app a a' c c' s s1 s2 : mws a a' s s1 -> mws c c' s1 s2 -> mws (a ++ c) (a' ++ c') s s2.
  Proof. intros H1 H2 l. destruct (H1 l) as (l1 & A & B). destruct (H2 l1) as (l2 & C & D). exists l2. split; eapply walks_app; eassumption. Qed.
  Lemma mws_one n n' s s' : mw n n' s s' -> mws [n] [n'] s s'.
  Proof. intros H. eapply mws_cons; [exact H|apply mws_nil]. Qed.
  Lemma mw_node n n' s s' : (forall s, replace h n s = (s, true)) -> (forall l, leaves n' l = (l, true)) ->
    mws (children_mut n) (children_mut n') s s' -> mw n n' s s'.
  Proof. intros E E' H l. destruct (H l) as (l' & A & B). exists l'. split; (eapply Walk_go; [eauto|assumption]). Qed.
  Lemma mw_leaf n n' s s' : new_leaf h n s = Some (s', n') -> (forall l, leaves n' l = (l ++ [n'], true)) ->
    children_mut n = [] -> children_mut n' = [] -> mw n n' s s'.
  Proof.
    intros E E' C C' l. exists (l ++ [n']). split.
    - eapply Walk_go; [unfold replace; cbn [fst]; rewrite E; reflexivity|]. rewrite C. constructor.
    - eapply Walk_go; [apply E'|]. rewrite C'. constructor.
  Qed.
  Lemma mws_each {A} (f : A -> S -> S * A) (g : A -> node) l : Forall (fun x => forall s s' x', f x s = (s', x') -> mw (g x) (g x') s s') l ->
    forall s s' l', each_mut f l s = (s', l') -> mws (map g l) (map g l') s s'.
  Proof.
    induction 1 as [|x l H _ IH]; intros s s' l'; cbn [each_mut]; [intros [= <- <-]; apply mws_nil|].
    destruct (f x s) as [s1 y] eqn:E1. destruct (each_mut f l s1) as [s2 ys] eqn:E2. intros [= <- <-].
    cbn [map]. eapply mws_cons; eauto.
  Qed.
  Lemma mws_opt {A} (f : A -> S -> S * A) (g : A -> node) o : oall (fun x => forall s s' x', f x s = (s', x') -> mw (g x) (g x') s s') o ->
    forall s s' o', opt_mut f o s = (s', o') -> mws (match o with Some x => [g x] | None => [] end) (match o' with Some x => [g x] | None => [] end) s s'.
  Proof.
    destruct o as [x|]; cbn; intros H s s' o'; [|intros [= <- <-]; apply mws_nil].
    destruct (f x s) as [s1 y] eqn:E. intros [= <- <-]. apply mws_one; eauto.
  Qed.
  Lemma mw_ident i s s' i' : h_ident h i s = (s', i') -> mw (NIdent i) (NIdent i') s s'.
  Proof. intros E. apply mw_leaf; try reflexivity. cbn. now rewrite E. Qed.
  Lemma mw_idents l s s' l' : each_mut (h_ident h) l s = (s', l') -> mws (map NIdent l) (map NIdent l') s s'.
  Proof. apply mws_each. apply Forall_forall. intros x _ ? ? ?. apply mw_ident. Qed.
  Lemma mw_ident_opt o s s' o' : opt_mut (h_ident h) o s = (s', o') -> mws (idents o) (idents o') s s'.
  Proof. apply (mws_opt (h_ident h) NIdent). destruct o; cbn; [|exact I]. intros ? ? ?. apply mw_ident. Qed.

  Definition item_node (i : xitem) : node := match i with XItem k _ _ _ => NObjectItem k i end.
  Definition Me e := forall s s' x, m_expr h e s = (s', x) -> mw (NExpr e) (NExpr x) s s'.
  Definition Mc e := forall s s' x, m_cond h e s = (s', x) -> mw (NForCond e) (NForCond x) s s'.
  Definition Mi e := forall s s' x, m_item h e s = (s', x) -> mw (item_node e) (item_node x) s s'.
  Definition Mt e := forall s s' x, m_trop h e s = (s', x) -> mw (NTraversalOperator e) (NTraversalOperator x) s s'.
  Definition Mo e := forall m s s' x, m_op h e s = (s', x) -> mws (children_mut (NTraversalOperator (XTrop m e))) (children_mut (NTraversalOperator (XTrop m x))) s s'.
  Definition Mtp e := forall s s' x, m_template h e s = (s', x) -> mw (NTemplate e) (NTemplate x) s s'.
  Definition Mel e := forall s s' x, m_element h e s = (s', x) -> mw (NElement e) (NElement x) s s'.
  Definition Mls e := forall s s' x, m_else h e s = (s', x) -> mw (NElseTemplateExpr e) (NElseTemplateExpr x) s s'.

  Ltac folds := fold (m_expr h) (m_cond h) (m_item h) (m_trop h) (m_op h) (m_template h) (m_element h) (m_else h) in *.
  Ltac steps := repeat match goal with
    | |- context [let (_, _) := ?x in _] =>
      lazymatch x with context [let (_, _) := _ in _] => fail | _ => let E := fresh "E" in destruct x eqn:E end
    end; try rewrite keep; intros [= <- <-].
  Ltac node := apply mw_node; [reflexivity|reflexivity|cbn [children_mut children' children]].
  Ltac lf := apply mw_leaf; [cbn [new_leaf]; match goal with E : _ = (_, _) |- _ => rewrite E end; reflexivity|reflexivity|reflexivity|reflexivity].
  Ltac go := first
    [ apply mws_nil | eassumption
    | eapply mw_ident; eassumption | eapply mw_idents; eassumption | eapply mw_ident_opt; eassumption
    | match goal with H : Me _, E : m_expr h _ _ = _ |- mw _ _ _ _ => exact (H _ _ _ E) end
    | match goal with H : Mtp _, E : m_template h _ _ = _ |- mw _ _ _ _ => exact (H _ _ _ E) end
    | eapply (mws_each (m_expr h) NExpr); eassumption
    | eapply (mws_each (m_item h) item_node); eassumption
    | eapply (mws_each (m_trop h) NTraversalOperator); eassumption
    | eapply (mws_each (m_element h) NElement); eassumption
    | eapply (mws_opt (m_expr h) NExpr); eassumption
    | eapply (mws_opt (m_cond h) NForCond); eassumption
    | eapply (mws_opt (m_else h) NElseTemplateExpr); eassumption
    | lf ].
  Lemma mut_all : (forall e, Me e) /\ (forall e, Mc e) /\ (forall e, Mi e) /\ (forall e : xkey, True) /\ (forall e, Mt e) /\
    (forall e, Mo e) /\ (forall e, Mtp e) /\ (forall e, Mel e) /\ (forall e, Mls e).
  Proof.
    apply xexpr_all; intros; try exact I; unfold Me, Mc, Mi, Mt, Mo, Mtp, Mel, Mls; intros;
    match goal with E : _ = (_, _) |- _ => revert E end; cbn [m_expr m_cond m_item m_trop m_op m_template m_element m_else]; folds.
    all: steps.
    all: try (unfold item_node; node).
    all: try solve [go].
    all: try solve [apply mws_one; first [go | node; first [go | apply mws_one; go]]].
    - apply mws_one. destruct d. now apply mw_ident.
    - apply mws_one; node. eapply mws_cons; [go|]. eapply mws_cons; [go|]. apply mws_one; go.
    - apply mws_one; node. eapply mws_cons.
      + node. eapply mws_app; [go|]. apply mws_one; go.
      + apply mws_one; node. go.
    - apply mws_one; node. eapply mws_cons; [go|]. go.
    - apply mws_one; node. eapply mws_cons; [go|]. apply mws_one; go.
    - apply mws_one; node. eapply mws_cons; [go|]. eapply mws_cons; [go|]. apply mws_one; go.
    - apply mws_one; node. eapply mws_cons.
      + node. eapply mws_app; [go|]. eapply mws_cons; [go|]. apply mws_one; go.
      + eapply mws_app; [go|]. eapply mws_cons; [go|]. go.
    - match goal with H : Mo _, E : _ = _ |- _ => exact (H m _ _ _ E) end.
    - apply mws_one; node. apply mws_one; node. eapply mws_cons.
      + node. eapply mws_cons; [go|]. apply mws_one; go.
      + eapply mws_app; [go|]. apply mws_one; go.
    - apply mws_one; node. apply mws_one; node. eapply mws_cons.
      + node. eapply mws_app; [go|]. eapply mws_cons; [go|]. apply mws_one; go.
      + apply mws_one; go.
  Qed.
  Lemma mut_expr e : Me e. Proof. apply mut_all. Qed.
  Lemma mut_template t : Mtp t. Proof. apply mut_all. Qed.
  Definition Ms e := forall s s' x, m_struct h e s = (s', x) -> mw (NStructure e) (NStructure x) s s'.
  Definition Mb e := forall s s' x, m_body h e s = (s', x) -> mw (NBody e) (NBody x) s s'.
  Lemma mut_label l s s' x : m_label h l s = (s', x) -> mw (NBlockLabel l) (NBlockLabel x) s s'.
  Proof. destruct l; cbn [m_label]; steps; node; apply mws_one; go. Qed.
  Lemma mut_body_all : (forall x, Ms x) /\ (forall b, Mb b).
  Proof.
    apply xbody_all; unfold Mb, Ms; intros; match goal with E : _ = (_, _) |- _ => revert E end;
    cbn [m_struct m_body]; fold (m_struct h) (m_body h); steps; node.
    - apply mws_one; node. apply mws_one. eapply mut_expr; eassumption.
    - apply mws_one; node. eapply mws_cons; [go|]. eapply mws_app.
      + eapply (mws_each (m_label h) NBlockLabel); [|eassumption]. apply Forall_forall. intros ? _ ? ? ?. apply mut_label.
      + apply mws_one; eauto.
    - eapply (mws_each (m_struct h) NStructure); eassumption.
  Qed.
  Lemma mw_replaced n n' s s' : mw n n' s s' -> replaced h n n' s s'.
  Proof. intros H. apply H. Qed.
  Lemma replaced_expr e s : replaced h (NExpr e) (NExpr (snd (m_expr h e s))) s (fst (m_expr h e s)).
  Proof. apply mw_replaced, mut_expr. now destruct (m_expr h e s). Qed.
  Lemma replaced_template e s : replaced h (NTemplate e) (NTemplate (snd (m_template h e s))) s (fst (m_template h e s)).
  Proof. apply mw_replaced, mut_template. now destruct (m_template h e s). Qed.
  Lemma replaced_body e s : replaced h (NBody e) (NBody (snd (m_body h e s))) s (fst (m_body h e s)).
  Proof. apply mw_replaced, mut_body_all. now destruct (m_body h e s). Qed.
End W.

Section P.
  Context {S : Type} (h : hooks S) (f : xexpr -> S -> S).
  Context (h1 : forall x s, h_ident h x s = (s, x)) (h2 : forall x s, h_null h x s = (s, x))
    (h3 : forall x s, h_bool h x s = (s, x)) (h4 : forall x s, h_u64 h x s = (s, x))
    (h5 : forall x s, h_number h x s = (s, x)) (h6 : forall x s, h_string h x s = (s, x))
    (h7 : forall x s, h_splat h x s = (s, x)) (h8 : forall x s, h_literal h x s = (s, x))
    (h9 : forall x s, h_unop h x s = (s, x)) (h10 : forall x s, h_binop h x s = (s, x))
    (h11 : forall x s, h_endif h x s = (s, x)) (h12 : forall x s, h_endfor h x s = (s, x))
    (h0 : forall e s, h_after_expr h e s = (f e s, e)).
  Definition only (n : node) (s : S) : S := match n with NExpr e => f e s | _ => s end.
  Notation PW := (Post children_mut only).
  Notation PWs := (Posts children_mut only).
  Lemma pw_node n s s' : (forall s, only n s = s) -> PWs (children_mut n) s s' -> PW n s s'.
  Proof. intros E H. rewrite <- (E s'). now constructor. Qed.
  Lemma pw_expr e s s' : PWs (children_mut (NExpr e)) s s' -> PW (NExpr e) s (f e s').
  Proof. intros H. now apply (Post_node children_mut only (NExpr e)). Qed.
  Lemma pws_app a c s s1 s2 : PWs a s s1 -> PWs c s1 s2 -> PWs (a ++ c) s s2.
  Proof. induction 1 as [|n l s x y H _ IH]; [auto|]. intros H'. cbn [app]. econstructor; eauto. Qed.
  Lemma pws_one n s s' : PW n s s' -> PWs [n] s s'.
  Proof. intros H. econstructor; [exact H|constructor]. Qed.
  Lemma pw_leaf n s : (forall s, only n s = s) -> children_mut n = [] -> PW n s s.
  Proof. intros E C. apply pw_node; [exact E|]. rewrite C. constructor. Qed.
  Lemma pws_each {A} (k : A -> S -> S * A) (g : A -> node) l : Forall (fun x => forall s s' x', k x s = (s', x') -> x' = x /\ PW (g x) s s') l ->
    forall s s' l', each_mut k l s = (s', l') -> l' = l /\ PWs (map g l) s s'.
  Proof.
    induction 1 as [|x l H _ IH]; intros s s' l'; cbn [each_mut]; [intros [= <- <-]; split; [reflexivity|constructor]|].
    destruct (k x s) as [s1 y] eqn:E1. destruct (each_mut k l s1) as [s2 ys] eqn:E2. intros [= <- <-].
    destruct (H _ _ _ E1) as [-> A1]. destruct (IH _ _ _ E2) as [-> A2]. split; [reflexivity|]. cbn [map]. econstructor; eauto.
  Qed.
  Lemma pws_opt {A} (k : A -> S -> S * A) (g : A -> node) o : oall (fun x => forall s s' x', k x s = (s', x') -> x' = x /\ PW (g x) s s') o ->
    forall s s' o', opt_mut k o s = (s', o') -> o' = o /\ PWs (match o with Some x => [g x] | None => [] end) s s'.
  Proof.
    destruct o as [x|]; cbn; intros H s s' o'; [|intros [= <- <-]; split; [reflexivity|constructor]].
    destruct (k x s) as [s1 y] eqn:E. intros [= <- <-]. destruct (H _ _ _ E) as [-> B]. split; [reflexivity|]. now apply pws_one.
  Qed.
  Lemma pw_ident i s s' i' : h_ident h i s = (s', i') -> i' = i /\ PW (NIdent i) s s'.
  Proof. rewrite h1. intros [= <- <-]. split; [reflexivity|]. now apply pw_leaf. Qed.
  Lemma pw_idents l s s' l' : each_mut (h_ident h) l s = (s', l') -> l' = l /\ PWs (map NIdent l) s s'.
  Proof. apply pws_each. apply Forall_forall. intros x _ ? ? ?. apply pw_ident. Qed.
  Lemma pw_ident_opt o s s' o' : opt_mut (h_ident h) o s = (s', o') -> o' = o /\ PWs (idents o) s s'.
  Proof. apply (pws_opt (h_ident h) NIdent). destruct o; cbn; [|exact I]. intros ? ? ?. apply pw_ident. Qed.

  Definition Pe e := forall s s' x, m_expr h e s = (s', x) -> x = e /\ PW (NExpr e) s s'.
  Definition Pc e := forall s s' x, m_cond h e s = (s', x) -> x = e /\ PW (NForCond e) s s'.
  Definition Pi e := forall s s' x, m_item h e s = (s', x) -> x = e /\ PW (item_node e) s s'.
  Definition Pt e := forall s s' x, m_trop h e s = (s', x) -> x = e /\ PW (NTraversalOperator e) s s'.
  Definition Po e := forall m s s' x, m_op h e s = (s', x) -> x = e /\ PWs (children_mut (NTraversalOperator (XTrop m e))) s s'.
  Definition Ptp e := forall s s' x, m_template h e s = (s', x) -> x = e /\ PW (NTemplate e) s s'.
  Definition Pel e := forall s s' x, m_element h e s = (s', x) -> x = e /\ PW (NElement e) s s'.
  Definition Pls e := forall s s' x, m_else h e s = (s', x) -> x = e /\ PW (NElseTemplateExpr e) s s'.

  Ltac folds := fold (m_expr h) (m_cond h) (m_item h) (m_trop h) (m_op h) (m_template h) (m_element h) (m_else h) in *.
  Ltac leafs := rewrite ?h1, ?h2, ?h3, ?h4, ?h5, ?h6, ?h7, ?h8, ?h9, ?h10, ?h11, ?h12; cbn [fst snd i_meta i_name].
  Ltac same := repeat match goal with
    | H : Pe _, E : m_expr h _ _ = (_, _) |- _ => apply H in E; destruct E as [-> E]
    | H : Ptp _, E : m_template h _ _ = (_, _) |- _ => apply H in E; destruct E as [-> E]
    | m : meta, H : Po _, E : m_op h _ _ = (_, _) |- _ => apply (H m) in E; destruct E as [-> E]
    | E : h_ident h _ _ = (_, _) |- _ => apply pw_ident in E; destruct E as [-> E]
    | E : each_mut (h_ident h) _ _ = (_, _) |- _ => apply pw_idents in E; destruct E as [-> E]
    | E : opt_mut (h_ident h) _ _ = (_, _) |- _ => apply pw_ident_opt in E; destruct E as [-> E]
    | E : each_mut (m_expr h) _ _ = (_, _) |- _ => eapply (pws_each (m_expr h) NExpr) in E; [|eassumption]; destruct E as [-> E]
    | E : each_mut (m_item h) _ _ = (_, _) |- _ => eapply (pws_each (m_item h) item_node) in E; [|eassumption]; destruct E as [-> E]
    | E : each_mut (m_trop h) _ _ = (_, _) |- _ => eapply (pws_each (m_trop h) NTraversalOperator) in E; [|eassumption]; destruct E as [-> E]
    | E : each_mut (m_element h) _ _ = (_, _) |- _ => eapply (pws_each (m_element h) NElement) in E; [|eassumption]; destruct E as [-> E]
    | E : opt_mut (m_expr h) _ _ = (_, _) |- _ => eapply (pws_opt (m_expr h) NExpr) in E; [|eassumption]; destruct E as [-> E]
    | E : opt_mut (m_cond h) _ _ = (_, _) |- _ => eapply (pws_opt (m_cond h) NForCond) in E; [|eassumption]; destruct E as [-> E]
    | E : opt_mut (m_else h) _ _ = (_, _) |- _ => eapply (pws_opt (m_else h) NElseTemplateExpr) in E; [|eassumption]; destruct E as [-> E]
    end.
  Ltac steps := repeat (leafs; match goal with
    | |- context [let (_, _) := ?x in _] =>
      lazymatch x with
      | context [let (_, _) := _ in _] => fail
      | _ => let E := fresh "E" in destruct x eqn:E
      end
    end); leafs; try rewrite h0; intros [= <- <-]; same; (split; [try reflexivity|]).
  Ltac node := first [apply pw_expr | apply pw_node; [reflexivity|]]; cbn [children_mut children' children].
  Ltac go1 := first [eassumption | apply pw_leaf; reflexivity].
  Ltac go := repeat first [eassumption | eapply pws_app; [eassumption|] | eapply Posts_cons; [go1|] | apply Posts_nil].
  Lemma post_all : (forall e, Pe e) /\ (forall e, Pc e) /\ (forall e, Pi e) /\ (forall e : xkey, True) /\ (forall e, Pt e) /\
    (forall e, Po e) /\ (forall e, Ptp e) /\ (forall e, Pel e) /\ (forall e, Pls e).
  Proof.
    apply xexpr_all; intros; try exact I; unfold Pe, Pc, Pi, Pt, Po, Ptp, Pel, Pls; intros;
    match goal with E : _ = (_, _) |- _ => revert E end; cbn [m_expr m_cond m_item m_trop m_op m_template m_element m_else]; folds.
    all: steps.
    all: try (unfold item_node; node).
    all: try solve [go].
    all: try solve [apply pws_one; node; go].
    - apply pws_one; node. eapply Posts_cons; [node; go|]. apply pws_one. node. go.
    - apply pws_one; node. eapply Posts_cons; [node; go|]. go.
    - apply pws_one; node. apply pws_one; node. eapply Posts_cons; [node; go|]. go.
    - apply pws_one; node. apply pws_one; node. eapply Posts_cons; [node; go|]. go.
  Qed.
  Definition Ps e := forall s s' x, m_struct h e s = (s', x) -> x = e /\ PW (NStructure e) s s'.
  Definition Pb e := forall s s' x, m_body h e s = (s', x) -> x = e /\ PW (NBody e) s s'.
  Lemma post_label l s s' x : m_label h l s = (s', x) -> x = l /\ PW (NBlockLabel l) s s'.
  Proof. destruct l; cbn [m_label]; steps; node; go. Qed.
  Lemma post_expr e : Pe e. Proof. apply post_all. Qed.
  Lemma post_template t : Ptp t. Proof. apply post_all. Qed.
  Ltac steps0 := match goal with |- context [each_mut (m_label h) ?l ?s] => destruct (each_mut (m_label h) l s) eqn:E1 end;
    match goal with |- context [m_body h ?b ?s] => destruct (m_body h b s) eqn:E2 end; intros [= <- <-].
  Lemma post_body_all : (forall x, Ps x) /\ (forall b, Pb b).
  Proof.
    apply xbody_all; unfold Pb, Ps; intros; match goal with E : _ = (_, _) |- _ => revert E end;
    cbn [m_struct m_body]; fold (m_struct h) (m_body h).
    - destruct (m_expr h v s) eqn:E. intros [= <- <-]. apply post_expr in E. destruct E as [-> E]. split; [reflexivity|].
      node. apply pws_one; node. go.
    - rewrite h1. steps0.
      eapply (pws_each (m_label h) NBlockLabel) in E1; [|apply Forall_forall; intros ? _ ? ? ?; apply post_label].
      destruct E1 as [-> E1]. apply H in E2. destruct E2 as [-> E2]. split; [reflexivity|]. node. apply pws_one; node. go.
    - destruct (each_mut (m_struct h) l s) eqn:E1. intros [= <- <-].
      eapply (pws_each (m_struct h) NStructure) in E1; [|eassumption]. destruct E1 as [-> E1]. split; [reflexivity|]. node. go.
  Qed.
  Lemma posts :
    (forall e s, snd (m_expr h e s) = e /\ PW (NExpr e) s (fst (m_expr h e s))) /\
    (forall x s, snd (m_body h x s) = x /\ PW (NBody x) s (fst (m_body h x s))) /\
    (forall t s, snd (m_template h t s) = t /\ PW (NTemplate t) s (fst (m_template h t s))).
  Proof.
    split; [|split]; intros x s.
    - apply post_expr. apply surjective_pairing.
    - apply post_body_all. apply surjective_pairing.
    - apply post_template. apply surjective_pairing.
  Qed.
End P.
