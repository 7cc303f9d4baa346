(** * C38: visitors reach every node exactly once *)
From Coq Require Import NArith Bool String List.
From Verif Require Import Str NumberModel PrimModel EAst ParseBase ParseModel ParseProps ParseSpec.
From Verif Require Import VisitModel VisitSpec VisitProofs VisitMutProofs.
Import ListNotations.
Open Scope list_scope.

(** Visiting an expression, a template or a body is the depth-first walk in source order, whatever
    the hooks do and wherever they stop.

    Missing: the trees with [for] directives ([C38_for_directive_refuted]), for which the walk leaves
    out the collection ([C38_visits_all]). *)
Theorem C38_visits_expr_partial {S} (hook : node -> S -> S * bool) e s :
  no_for_directive (NExpr e) -> Walk children hook (NExpr e) s (v_expr hook e s).
Proof. intros H. apply walk_full; [apply visits_expr|exact H]. Qed.
Print Assumptions C38_visits_expr_partial.
Theorem C38_visits_body_partial {S} (hook : node -> S -> S * bool) x s :
  no_for_directive (NBody x) -> Walk children hook (NBody x) s (v_body hook x s).
Proof. intros H. apply walk_full; [apply visits_bodies|exact H]. Qed.
Print Assumptions C38_visits_body_partial.
Theorem C38_visits_template_partial {S} (hook : node -> S -> S * bool) t s :
  no_for_directive (NTemplate t) -> Walk children hook (NTemplate t) s (v_template hook t s).
Proof. intros H. apply walk_full; [apply visits_all|exact H]. Qed.
Print Assumptions C38_visits_template_partial.
Theorem C38_visits_all {S} (hook : node -> S -> S * bool) :
  (forall e s, Walk children' hook (NExpr e) s (v_expr hook e s)) /\
  (forall x s, Walk children' hook (NBody x) s (v_body hook x s)) /\
  (forall t s, Walk children' hook (NTemplate t) s (v_template hook t s)).
Proof. repeat split; intros; [apply visits_expr|apply visits_bodies|apply visits_all]. Qed.
Print Assumptions C38_visits_all.

(** The walk is the only one, and with hooks that never stop it calls the hook once for each position
    of the tree, in the order of the source. *)
Theorem C38_walk_unique {S} ch (hook : node -> S -> S * bool) n s s' s'' :
  Walk ch hook n s s' -> Walk ch hook n s s'' -> s' = s''.
Proof. intros H H'. symmetry. exact (proj1 (walk_det ch hook) n s s' H s'' H'). Qed.
Print Assumptions C38_walk_unique.
Definition calls {S} (hook : node -> S -> S * bool) (l : list (list nat * node)) (s : S) : S :=
  fold_left (fun s a => fst (hook (snd a) s)) l s.
Theorem C38_each_once_partial {S} (hook : node -> S -> S * bool) x s :
  (forall n s, snd (hook n s) = true) -> no_for_directive (NBody x) ->
  exists l, enumerates children (NBody x) l /\ v_body hook x s = calls hook l s.
Proof. intros Hgo H. apply (positions children hook Hgo). now apply C38_visits_body_partial. Qed.
Print Assumptions C38_each_once_partial.
Theorem C38_each_once_expr_partial {S} (hook : node -> S -> S * bool) e s :
  (forall n s, snd (hook n s) = true) -> no_for_directive (NExpr e) ->
  exists l, enumerates children (NExpr e) l /\ v_expr hook e s = calls hook l s.
Proof. intros Hgo H. apply (positions children hook Hgo). now apply C38_visits_expr_partial. Qed.
Print Assumptions C38_each_once_expr_partial.

(** A visitor that writes down what it is called with. *)
Definition log (n : node) (s : list node) : list node * bool := (s ++ [n], true).
(** The names of the identifiers it meets. *)
Definition names (n : node) (s : list str) : list str * bool := (match n with NIdent i => s ++ [i_name i] | _ => s end, true).
Definition names_of (s : String.string) : option (list str) :=
  match ex_body s with Parsed x => Some (v_body names x []) | _ => None end.
Open Scope string_scope.
Example C38_example :
  names_of "a = b.c[d] x ""y"" z { e = f(g, {h = i}) }" = None /\
  names_of "a = b.c[d]
x z { e = [for k, v in f(g, {h = i}) : k if ""${v}""] }" = Some (map lit ["a"; "b"; "c"; "d"; "x"; "z"; "e"; "k"; "v"; "f"; "g"; "h"; "i"; "k"; "v"]).
Proof. vm_compute. split; reflexivity. Qed.
(** The hypothesis of the theorems holds for it: the template has no [for] directive. *)
Example C38_example_no_for :
  no_for_directive (NExpr (XTpl no_meta [XInterp None (XVar no_meta (lit "a")) StripNone])).
Proof.
  intros m H. inversion H; subst; [exact I|]. cbn in *. destruct H0 as [<-|[]]. inversion H1; subst; [exact I|]. cbn in *.
  destruct H0 as [<-|[]]. inversion H2; subst; [exact I|]. cbn in *. destruct H0 as [<-|[]]. inversion H3; subst; [exact I|].
  cbn in *. destruct H0 as [<-|[]]. inversion H4; subst; [exact I|]. cbn in *. destruct H0 as [<-|[]].
  inversion H5; subst; [exact I|]. cbn in *. contradiction.
Qed.

(** The collection of a [for] directive is not visited: the variable [xs] is missed. *)
Theorem C38_for_directive_refuted :
  names_of "a = ""%{ for x in xs }${x}%{ endfor }""
" = Some (map lit ["a"; "x"; "x"]).
Proof. vm_compute. reflexivity. Qed.
Print Assumptions C38_for_directive_refuted.
Theorem C38_for_directive_walk_refuted :
  ~ forall (hook : node -> list node -> list node * bool) x s, Walk children hook (NBody x) s (v_body hook x s).
Proof.
  intros H.
  pose (k := Did no_meta (lit "a")). pose (z := XVar no_meta (lit "xs")).
  pose (t := XTpl no_meta [XForD None REmpty None k z (XTempl [] None) StripNone REmpty REmpty StripNone]).
  pose (x := XBody no_meta [XAttr no_meta k t] false false).
  assert (Hw := H log x []).
  apply positions in Hw as (l & [_ Hl] & E); [|reflexivity].
  assert (Hz : In ([0; 0; 1; 0; 0; 0; 0; 0; 1]%nat, NExpr z) l) by (apply Hl; reflexivity).
  assert (In (NExpr z) (v_body log x [])).
  { rewrite E. clear -Hz. cut (forall s, In (NExpr z) (seen log l s)); [auto|].
    assert (G : forall l s, In (NExpr z) s -> In (NExpr z) (seen log l s)).
    { clear. induction l as [|a l IH]; intros s H; [exact H|]. cbn. apply IH. apply in_or_app. now left. }
    induction l as [|a l IH]; [contradiction|]. intros s. destruct Hz as [->|Hz]; [|now apply IH].
    cbn. apply G. apply in_or_app. right. now left. }
  vm_compute in H0. repeat destruct H0 as [H0|H0]; try discriminate H0. contradiction.
Qed.
Print Assumptions C38_for_directive_walk_refuted.

(** ** [VisitMut]

    With the default methods nothing changes. *)
Theorem C38_mut_default S :
  (forall e s, m_expr (default_hooks S) e s = (s, e)) /\ (forall x s, m_body (default_hooks S) x s = (s, x)) /\
  (forall t s, m_template (default_hooks S) t s = (s, t)).
Proof. repeat split; [apply mut_default_all|apply mut_default_body|apply mut_default_all]. Qed.
Print Assumptions C38_mut_default.
(** Whatever the hooks do, the attributes keep their names, so that the names stay unique; and objects
    keep their keys. *)
Theorem C38_mut_attribute_names {S} (h : hooks S) m l o n s :
  exists l', snd (m_body h (XBody m l o n) s) = XBody m l' o n /\ attr_names l' = attr_names l.
Proof. destruct (m_body_keys h m l o n s) as (l' & E & En & _). eauto. Qed.
Print Assumptions C38_mut_attribute_names.
Theorem C38_mut_unique_keys {S} (h : hooks S) x s : unique_keys x -> unique_keys (snd (m_body h x s)).
Proof. apply m_body_unique. Qed.
Print Assumptions C38_mut_unique_keys.
Theorem C38_mut_object_keys {S} (h : hooks S) m l t s :
  (forall e s, h_after_expr h e s = (s, e)) ->
  exists l', snd (m_expr h (XObj m l t) s) = XObj m l' t /\ map item_key l' = map item_key l.
Proof.
  intros H. cbn [m_expr]. fold (m_item h). rewrite <- (m_items_keys h l s).
  destruct (each_mut (m_item h) l s) as [s' l']. rewrite H. now exists l'.
Qed.
Print Assumptions C38_mut_object_keys.

(** The hooks are called for the leaves of the tree one after the other, each once, in the order of the
    source text, and what they return takes the place of the leaf. *)
Theorem C38_mut_visits {S} (h : hooks S) : (forall e s, h_after_expr h e s = (s, e)) ->
  (forall e s, replaced h (NExpr e) (NExpr (snd (m_expr h e s))) s (fst (m_expr h e s))) /\
  (forall x s, replaced h (NBody x) (NBody (snd (m_body h x s))) s (fst (m_body h x s))) /\
  (forall t s, replaced h (NTemplate t) (NTemplate (snd (m_template h t s))) s (fst (m_template h t s))).
Proof. intros H. repeat split; [apply replaced_expr|apply replaced_body|apply replaced_template]; exact H. Qed.
Print Assumptions C38_mut_visits.
(** A visitor that looks at every expression after its parts, and changes none, sees all the
    expressions, each once and the parts before the whole. *)
Definition look {S} (f : xexpr -> S -> S) : hooks S :=
  let keep {A} (x : A) (s : S) := (s, x) in
  Hooks S keep keep keep keep keep keep keep keep keep keep keep keep (fun e s => (f e s, e)).
Definition on_expr {S} (f : xexpr -> S -> S) (n : node) : S -> S := match n with NExpr e => f e | _ => fun s => s end.
Theorem C38_mut_exprs {S} (f : xexpr -> S -> S) :
  (forall e s, snd (m_expr (look f) e s) = e /\ Post children_mut (on_expr f) (NExpr e) s (fst (m_expr (look f) e s))) /\
  (forall x s, snd (m_body (look f) x s) = x /\ Post children_mut (on_expr f) (NBody x) s (fst (m_body (look f) x s))) /\
  (forall t s, snd (m_template (look f) t s) = t /\
    Post children_mut (on_expr f) (NTemplate t) s (fst (m_template (look f) t s))).
Proof.
  assert (E : forall n s s', Post children_mut (only f) n s s' -> Post children_mut (on_expr f) n s s').
  { assert (F : forall n s, only f n s = on_expr f n s) by (intros []; reflexivity).
    fix IH 4. intros n s s' [n0 s0 s1 H]. rewrite F. constructor. revert s0 s1 H. generalize (children_mut n0).
    fix IHs 4. intros l s0 s1 [s2|n1 l1 s2 s3 s4 H1 H2]; [constructor|].
    econstructor; [apply IH; exact H1|apply IHs; exact H2]. }
  edestruct (posts (look f) f) as (H1 & H2 & H3); try reflexivity.
  split; [|split]; intros x s; (split; [|apply E]); [apply H1|apply H1|apply H2|apply H2|apply H3|apply H3].
Qed.
Print Assumptions C38_mut_exprs.

(** A hook that renames every identifier to [z]: references change, the name of the attribute does not. *)
Definition rename : hooks unit :=
  let keep {A} (x : A) (s : unit) := (s, x) in
  Hooks unit (fun i s => (s, Did (i_meta i) (lit "z"))) keep keep keep keep keep keep keep keep keep keep keep keep.
Example C38_mut_example :
  match ex_body "a = b
c = ""${d}"" " with Parsed x => Some (v_body names (snd (m_body rename x tt)) []) | _ => None end
  = Some (map lit ["a"; "z"; "c"; "z"]).
Proof. vm_compute. reflexivity. Qed.
(** A hook that numbers the identifiers it sees. *)
Definition digit (n : nat) : str := [(48 + N.of_nat n)%N].
Definition number : hooks nat :=
  let keep {A} (x : A) (s : nat) := (s, x) in
  Hooks nat (fun i s => (S s, Did (i_meta i) (i_name i ++ digit s)%list)) keep keep keep keep keep keep keep keep keep keep keep keep.
Example C38_mut_visits_example :
  (forall e s, h_after_expr number e s = (s, e)) /\
  match ex_body "a = b ? f(c) : d[e]
x y { z = ""%{ if p }${q}%{ else }${r}%{ endif }"" }
" with Parsed x => Some (fst (m_body number x 0), v_body names (snd (m_body number x 0)) []) | _ => None end
  = Some (10%nat, map lit ["a"; "b0"; "f1"; "c2"; "d3"; "e4"; "x5"; "y6"; "z"; "p7"; "q8"; "r9"]).
Proof. split; [reflexivity|]. vm_compute. reflexivity. Qed.
Example C38_mut_exprs_example :
  match ex_body "a = b ? f(1) : d[2]
" with Parsed x => Some (fst (m_body (look (fun e s => s ++ [match e with XVar _ x => x | XCall _ _ n _ _ _ _ _ => i_name n | XCond _ _ _ _ => lit "?" | XTrav _ _ _ => lit "[]" | XNum _ _ _ => lit "0" | _ => [] end])%list) x []))
  | _ => None end = Some (map lit ["b"; "0"; "f"; "d"; "0"; "[]"; "?"]).
Proof. vm_compute. reflexivity. Qed.
