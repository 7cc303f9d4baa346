(** Proofs about evaluation: how the result depends on the context and on the nesting bound. *)
From Coq Require Import ZArith NArith Bool String List Lia.
From Verif Require Import Res Str NumberModel PrimModel Ast AstInd EvalModel EvalSpec.
From Verif Require MapModel MapProofs.
Import ListNotations.
Open Scope nat_scope.

(** ** Comparing outcomes

    [le Q x y]: a success of [x] is the same success of [y], and a failure of [x] that satisfies [Q]
    is the same failure of [y]. *)
Definition le {A} (Q : fail -> Prop) (x y : eres A) : Prop :=
  match x with Ok a => y = Ok a | Fail f => Q f -> y = Fail f end.

Section Le.
  Context (Q : fail -> Prop).
  Lemma le_refl {A} (x : eres A) : le Q x x.
  Proof. destruct x; cbn; auto. Qed.
  Lemma le_bind {A B} (x y : eres A) (f g : A -> eres B) :
    le Q x y -> (forall a, x = Ok a -> le Q (f a) (g a)) -> le Q (ebind x f) (ebind y g).
  Proof.
    intros H1 H2. destruct x as [a|e]; cbn in H1 |- *.
    - rewrite H1. cbn. auto.
    - intros q. rewrite (H1 q). reflexivity.
  Qed.
  Lemma le_map {A B} (x y : eres A) (f : A -> B) : le Q x y -> le Q (emap f x) (emap f y).
  Proof. destruct x as [a|e]; cbn; intros H; [rewrite H|intros q; rewrite (H q)]; reflexivity. Qed.
  Lemma le_collect {A B} (f g : A -> eres B) l :
    (forall a, In a l -> le Q (f a) (g a)) -> le Q (collect f l) (collect g l).
  Proof.
    induction l as [|a l IH]; intros H; cbn [collect].
    - apply le_refl.
    - apply le_bind; [apply H; left; reflexivity|]. intros b _. apply le_map. apply IH.
      intros x Hx. apply H. right. exact Hx.
  Qed.
  Lemma le_splat f g v : (forall x, le Q (f x) (g x)) -> le Q (splat f v) (splat g v).
  Proof.
    intros H. destruct v; cbn [splat]; try (apply le_map; auto); [apply le_refl|].
    apply le_collect. auto.
  Qed.

  Definition trop_le (o p : trop (eres value)) : Prop :=
    match o, p with
    | Index r, Index s => le Q r s
    | _, _ => o = p
    end.
  Lemma le_attr_path ops ops' v : Forall2 trop_le ops ops' -> le Q (attr_path ops v) (attr_path ops' v).
  Proof.
    intros H. revert v. induction H as [|o p ops ops' H1 H2 IH]; intros v; cbn [attr_path].
    - apply le_refl.
    - destruct o, p; cbn in H1; try discriminate; try apply le_refl.
      injection H1 as ->. apply le_bind; [apply le_refl|]. auto.
  Qed.
  Lemma le_traverse ops ops' (skip : bool) v :
    Forall2 trop_le ops ops' -> le Q (traverse skip ops v) (traverse skip ops' v).
  Proof.
    intros H. revert skip v. induction H as [|o p ops ops' H1 H2 IH]; intros skip v; cbn [traverse].
    - apply le_refl.
    - destruct o, p; cbn in H1; try discriminate.
      + apply le_bind; [apply le_splat; intros x; apply le_attr_path; exact H2|]. auto.
      + apply le_splat. auto.
      + injection H1 as ->. destruct skip; auto. apply le_bind; [apply le_refl|]. auto.
      + apply le_bind; [apply le_bind; [exact H1|intros; apply le_refl]|]. auto.
      + injection H1 as ->. apply le_bind; [apply le_refl|]. auto.
  Qed.
  Lemma le_call_args (b : bool) l l' : Forall2 (le Q) l l' -> le Q (call_args b l) (call_args b l').
  Proof.
    intros H. induction H as [|x y l l' H1 H2 IH]; cbn [call_args].
    - apply le_refl.
    - destruct H2 as [|x2 y2 l l' H2 H3].
      + destruct b; [apply le_bind; auto; intros; apply le_refl|apply le_map; auto].
      + apply le_bind; auto. intros a _. apply le_map. exact IH.
  Qed.
  Lemma le_for_loop {A} mk mk' cond cond' (body body' : A -> ctx -> eres A) items acc :
    (forall k v, In (k, v) items -> le Q (cond (mk k v)) (cond' (mk' k v))) ->
    (forall k v a, In (k, v) items -> le Q (body a (mk k v)) (body' a (mk' k v))) ->
    le Q (for_loop mk cond body items acc) (for_loop mk' cond' body' items acc).
  Proof.
    revert acc. induction items as [|[k v] items IH]; intros acc Hc Hb; cbn [for_loop].
    - apply le_refl.
    - apply le_bind; [apply Hc; left; reflexivity|].
      assert (IH' : forall acc, le Q (for_loop mk cond body items acc) (for_loop mk' cond' body' items acc)).
      { intros a. apply IH; intros; [apply Hc|apply Hb]; right; assumption. }
      intros [] _; auto. apply le_bind; auto. apply Hb. left. reflexivity.
  Qed.
  Lemma le_tpl_loop out out' all prev next i els acc :
    (forall el p n, In el els -> le Q (out el p n) (out' el p n)) ->
    le Q (tpl_loop out all prev next i els acc) (tpl_loop out' all prev next i els acc).
  Proof.
    revert i acc. induction els as [|el els IH]; intros i acc H; cbn [tpl_loop].
    - apply le_refl.
    - apply le_bind; [apply le_refl|]. intros pn _. apply le_bind; [apply H; left; reflexivity|].
      intros s _. apply IH. intros. apply H. right. assumption.
  Qed.
End Le.

(** ** Looking names up *)
Lemma get_insert x y (v : value) m :
  MapModel.get seqb x (fst (MapModel.insert seqb y v m)) = if seqb x y then Some v else MapModel.get seqb x m.
Proof.
  unfold MapModel.get. induction m as [|[k w] m IH]; cbn [MapModel.insert].
  - cbn. destruct (seqb x y); reflexivity.
  - destruct (seqb y k) eqn:E.
    + apply seqb_eq in E. subst k. cbn. destruct (seqb x y); reflexivity.
    + destruct (MapModel.insert seqb y v m) as [m' o]. cbn [fst] in IH |- *. cbn.
      destruct (seqb x k) eqn:E2.
      * apply seqb_eq in E2. subst k. replace (seqb x y) with false; [reflexivity|].
        symmetry. apply seqb_neq. apply seqb_neq in E. congruence.
      * exact IH.
Qed.
Lemma var_declare s c x y v :
  ctx_var (declare_var y v (s :: c)) x = if seqb x y then Some v else ctx_var (s :: c) x.
Proof. cbn [declare_var ctx_var sc_vars]. rewrite get_insert. destruct (seqb x y); reflexivity. Qed.
Lemma var_next c kv vv k v x :
  ctx_var (next_ctx c kv vv k v) x =
  if seqb x vv then Some v
  else if match kv with Some y => seqb x y | None => false end then Some k else ctx_var c x.
Proof.
  unfold next_ctx, child. destruct kv as [y|].
  - change (declare_var y k (empty_scope :: c)) with
      (Scope (fst (MapModel.insert seqb y k [])) [] :: c).
    rewrite var_declare. destruct (seqb x vv); auto. cbn [ctx_var sc_vars]. rewrite get_insert.
    destruct (seqb x y); reflexivity.
  - rewrite var_declare. reflexivity.
Qed.
Lemma func_next c kv vv k v f : ctx_func (next_ctx c kv vv k v) f = ctx_func c f.
Proof. unfold next_ctx, child. destruct kv; reflexivity. Qed.

(** ** The evaluator depends on the context only through the free variables and the functions *)
Definition crel (Q : fail -> Prop) (P : str -> Prop) (c c' : ctx) : Prop :=
  (forall x, P x -> le Q (lookup_var c x) (lookup_var c' x)) /\
  (forall f, le Q (lookup_func c f) (lookup_func c' f)).

Lemma crel_next Q (P P' : str -> Prop) c c' kv vv k v :
  crel Q P c c' -> (forall x, P' x -> bound_by kv vv x = true \/ P x) ->
  crel Q P' (next_ctx c kv vv k v) (next_ctx c' kv vv k v).
Proof.
  intros [H1 H2] HP. split.
  - intros x Px. unfold lookup_var. rewrite !var_next.
    destruct (HP x Px) as [B|Px'].
    + unfold bound_by in B. destruct (seqb x vv); [reflexivity|]. cbn [orb] in B. rewrite B. reflexivity.
    + destruct (seqb x vv); [reflexivity|].
      destruct (match kv with Some y => seqb x y | None => false end); [reflexivity|].
      apply (H1 x Px').
  - intros f. unfold lookup_func. rewrite !func_next. apply H2.
Qed.
Lemma crel_weaken Q (P P' : str -> Prop) c c' : crel Q P c c' -> (forall x, P' x -> P x) -> crel Q P' c c'.
Proof. intros [H1 H2] H. split; auto. Qed.

Section EvalLe.
  Context (bd : build) (parse_tpl : str -> option template)
          (show_value : value -> str) (show_num : num -> str) (Q : fail -> Prop).
  Notation eval_expr := (eval_expr bd show_num).

  Section Expr.
    Context (ft : str -> str -> bool) (tpl tpl' : ctx -> str -> eres value).
    Hypothesis Htpl : forall c c' s, crel Q (fun x => ft x s = true) c c' -> le Q (tpl c s) (tpl' c' s).

    Lemma eval_expr_le e : forall c c',
      crel Q (fun x => free_expr ft x e = true) c c' -> le Q (eval_expr tpl c e) (eval_expr tpl' c' e).
    Proof.
      induction e as [ |b|n|s|l IH|m IH|t|x|e ops IHe IH|f args b IH|e IH|a b d IHa IHb IHd|o e IH
                     |l o r IHl IHr|kv vv coll key val g cond IHcoll IHkey IHval IHcond] using expr_ind';
        intros c c' R; cbn [EvalModel.eval_expr]; try apply le_refl.
      - apply le_map. apply le_collect. intros e He. rewrite Forall_forall in IH. apply IH; auto.
        eapply crel_weaken; [exact R|]. intros x Hx. cbn [free_expr]. apply existsb_exists. eauto.
      - apply le_map. apply le_collect. intros [k v] He. rewrite Forall_forall in IH.
        destruct (IH _ He) as [IHk IHv]. cbn [fst snd] in *. apply le_bind.
        + destruct k as [s|e]; [apply le_refl|]. apply le_bind; [|intros; apply le_refl].
          apply IHk. eapply crel_weaken; [exact R|]. intros x Hx. cbn [free_expr]. apply existsb_exists.
          exists (KExpr e, v). split; auto. cbn [fst snd]. rewrite Hx. reflexivity.
        + intros s _. apply le_map. apply IHv. eapply crel_weaken; [exact R|]. intros x Hx.
          cbn [free_expr]. apply existsb_exists. exists (k, v). split; auto. cbn [fst snd].
          rewrite Hx. apply orb_true_r.
      - apply Htpl. exact R.
      - apply (proj1 R). cbn [free_expr]. apply seqb_refl.
      - apply le_bind.
        + apply IHe. eapply crel_weaken; [exact R|]. intros x Hx. cbn [free_expr]. rewrite Hx. reflexivity.
        + intros v _. apply le_traverse.
          assert (R' : forall o, In o ops -> forall x, match o with Index e => free_expr ft x e | _ => false end = true ->
                       free_expr ft x (ETrav e ops) = true).
          { intros o Ho x Hx. cbn [free_expr]. apply orb_true_iff. right. apply existsb_exists. eauto. }
          clear IHe v. induction IH as [|o ops IHo IH IH2]; cbn [map]; [constructor|].
          constructor.
          * destruct o as [| | |e'|]; cbn [trop_le]; auto. apply IHo. eapply crel_weaken; [exact R|].
            intros x Hx. apply (R' (Index e')); [left; reflexivity|exact Hx].
          * apply IH2.
            -- eapply crel_weaken; [exact R|]. intros x Hx. cbn [free_expr existsb] in Hx |- *.
               apply orb_true_iff in Hx. destruct Hx as [Hx|Hx]; rewrite Hx; [reflexivity|].
               rewrite !orb_true_r. reflexivity.
            -- intros o' Ho' x Hx. cbn [free_expr]. apply orb_true_iff. right. apply existsb_exists. eauto.
      - apply le_bind; [apply (proj2 R)|]. intros fd _. apply le_bind; [|intros; apply le_refl].
        apply le_call_args.
        assert (R' : forall e, In e args -> le Q (eval_expr tpl c e) (eval_expr tpl' c' e)).
        { intros e He. rewrite Forall_forall in IH. apply IH; auto. eapply crel_weaken; [exact R|].
          intros x Hx. cbn [free_expr]. apply existsb_exists. eauto. }
        clear -R'. induction args as [|e args IH]; cbn [map]; constructor.
        + apply R'. left. reflexivity.
        + apply IH. intros. apply R'. right. assumption.
      - apply IH. exact R.
      - apply le_bind.
        + apply IHa. eapply crel_weaken; [exact R|]. intros x Hx. cbn [free_expr]. rewrite Hx. reflexivity.
        + intros v _. apply le_bind; [apply le_refl|]. intros [] _; [apply IHb|apply IHd];
          (eapply crel_weaken; [exact R|]); intros x Hx; cbn [free_expr]; rewrite Hx, ?orb_true_r; reflexivity.
      - apply le_bind; [apply IH; exact R|intros; apply le_refl].
      - apply le_bind.
        + apply IHl. eapply crel_weaken; [exact R|]. intros x Hx. cbn [free_expr]. rewrite Hx. reflexivity.
        + intros v _. apply le_bind; [|intros; apply le_refl].
          apply IHr. eapply crel_weaken; [exact R|]. intros x Hx. cbn [free_expr]. rewrite Hx. apply orb_true_r.
      - assert (RN : forall k v e, (forall x, free_expr ft x e = true ->
                       optb (free_expr ft x) key || free_expr ft x val || optb (free_expr ft x) cond = true) ->
                     crel Q (fun x => free_expr ft x e = true) (next_ctx c kv vv k v) (next_ctx c' kv vv k v)).
        { intros k v e He. eapply crel_next; [exact R|]. intros x Hx. cbn [free_expr].
          rewrite (He x Hx). destruct (bound_by kv vv x); [left; reflexivity|right].
          cbn [negb andb]. apply orb_true_r. }
        assert (HC : forall k v,
          le Q match cond with None => Ok true | Some e => ebind (eval_expr tpl (next_ctx c kv vv k v) e) as_bool end
               match cond with None => Ok true | Some e => ebind (eval_expr tpl' (next_ctx c' kv vv k v) e) as_bool end).
        { intros k v. destruct cond as [cond|]; [|apply le_refl]. apply le_bind; [|intros; apply le_refl].
          apply IHcond. apply RN. intros x Hx. cbn [optb]. rewrite Hx. apply orb_true_r. }
        assert (HV : forall k v, le Q (eval_expr tpl (next_ctx c kv vv k v) val)
                                      (eval_expr tpl' (next_ctx c' kv vv k v) val)).
        { intros k v. apply IHval. apply RN. intros x Hx. rewrite Hx, orb_true_r. reflexivity. }
        apply le_bind.
        + apply le_bind; [|intros; apply le_refl]. apply IHcoll. eapply crel_weaken; [exact R|].
          intros x Hx. cbn [free_expr]. rewrite Hx. reflexivity.
        + intros items _. destruct key as [key|]; apply le_map; apply le_for_loop; auto.
          * intros k v a _. apply le_bind.
            -- apply le_bind; [|intros; apply le_refl]. apply IHkey. apply RN.
               intros x Hx. cbn [optb]. rewrite Hx. reflexivity.
            -- intros s _. apply le_bind; [apply HV|intros; apply le_refl].
          * intros k v a _. apply le_map. apply HV.
    Qed.
  End Expr.

  Section Tpl.
    Context (fe : str -> expr -> bool) (ev ev' : ctx -> expr -> eres value).
    Hypothesis Hev : forall c c' e, crel Q (fun x => fe x e = true) c c' -> le Q (ev c e) (ev' c' e).
    Notation eval_elem := (eval_elem show_value).

    Lemma eval_elem_le el : forall c c' p n,
      crel Q (fun x => free_elem fe x el = true) c c' -> le Q (eval_elem ev c el p n) (eval_elem ev' c' el p n).
    Proof.
      induction el as [s|e s|e t f s1 s2 s3 IHt IHf|kv vv e t s1 s2 IHt] using elem_ind';
        intros c c' p n R; cbn [EvalModel.eval_elem].
      - apply le_refl.
      - apply le_map. apply Hev. exact R.
      - apply le_bind.
        + apply le_bind; [|intros; apply le_refl]. apply Hev. eapply crel_weaken; [exact R|].
          intros x Hx. cbn [free_elem]. rewrite Hx. reflexivity.
        + intros [] _.
          * apply le_tpl_loop. intros el p' n' Hel. rewrite Forall_forall in IHt. apply IHt; auto.
            eapply crel_weaken; [exact R|]. intros x Hx. cbn [free_elem].
            replace (existsb (free_elem fe x) t) with true; [rewrite orb_true_r; reflexivity|].
            symmetry. apply existsb_exists. eauto.
          * destruct f as [f|]; [|apply le_refl]. cbn [opt_all] in IHf.
            apply le_tpl_loop. intros el p' n' Hel. rewrite Forall_forall in IHf. apply IHf; auto.
            eapply crel_weaken; [exact R|]. intros x Hx. cbn [free_elem].
            replace (existsb (free_elem fe x) f) with true; [rewrite orb_true_r; reflexivity|].
            symmetry. apply existsb_exists. eauto.
      - apply le_bind.
        + apply le_bind; [|intros; apply le_refl]. apply Hev. eapply crel_weaken; [exact R|].
          intros x Hx. cbn [free_elem]. rewrite Hx. reflexivity.
        + intros items _. apply le_for_loop; [intros; apply le_refl|]. intros k v a _. apply le_map.
          apply le_tpl_loop. intros el p' n' Hel. rewrite Forall_forall in IHt. apply IHt; auto.
          eapply crel_next; [exact R|]. intros x Hx. cbn [free_elem].
          replace (existsb (free_elem fe x) t) with true by (symmetry; apply existsb_exists; eauto).
          destruct (bound_by kv vv x); [left; reflexivity|right; apply orb_true_r].
    Qed.
    Lemma eval_template_le t c c' :
      crel Q (fun x => existsb (free_elem fe x) t = true) c c' ->
      le Q (eval_template show_value ev c t) (eval_template show_value ev' c' t).
    Proof.
      intros R. apply le_tpl_loop. intros el p n Hel. apply eval_elem_le. eapply crel_weaken; [exact R|].
      intros x Hx. apply existsb_exists. eauto.
    Qed.
    Lemma eval_tpl_text_le s c c' :
      crel Q (fun x => free_text parse_tpl fe x s = true) c c' ->
      le Q (eval_tpl_text parse_tpl show_value ev c s) (eval_tpl_text parse_tpl show_value ev' c' s).
    Proof.
      unfold free_text, eval_tpl_text. destruct (parse_tpl s) as [t|]; intros R; [|apply le_refl].
      pose proof (le_map Q _ _ VStr (eval_template_le t c c' R)) as T.
      destruct t as [|el t]; [exact T|]. destruct el as [s0|e st|? ? ? ? ? ?|? ? ? ? ? ?];
        destruct t as [|? ?]; try exact T.
      apply Hev. eapply crel_weaken; [exact R|]. intros x Hx. cbn. rewrite Hx. reflexivity.
    Qed.
  End Tpl.

  Notation eval := (eval bd parse_tpl show_value show_num).
  (** Related contexts and a possibly larger bound. *)
  Lemma eval_le n : (~ Q FFuel) -> forall m c c' e, n <= m ->
    crel Q (fun x => free_in parse_tpl n x e = true) c c' -> le Q (eval n c e) (eval m c' e).
  Proof.
    intros HQ. induction n as [|n IH]; intros m c c' e L R; cbn [free_in] in R; cbn [EvalModel.eval].
    - assert (G : le Q (eval_expr (fun _ _ => Fail FFuel) c e)
          (eval_expr (match m with O => fun _ _ => Fail FFuel
                              | S n => eval_tpl_text parse_tpl show_value (eval n) end) c' e)).
      { eapply eval_expr_le; [|exact R]. intros. cbn. intros F. contradiction. }
      destruct m; exact G.
    - destruct m as [|m]; [lia|]. cbn [EvalModel.eval].
      eapply eval_expr_le; [|exact R].
      intros c1 c2 s R'. eapply eval_tpl_text_le; [|exact R'].
      intros c3 c4 e' R2. apply IH; [lia|exact R2].
  Qed.
End EvalLe.

Section Consequences.
  Context (bd : build) (parse_tpl : str -> option template)
          (show_value : value -> str) (show_num : num -> str).
  Notation eval := (eval bd parse_tpl show_value show_num).

  Lemma extends_crel P c c' : extends c c' -> crel (fun _ => False) P c c'.
  Proof.
    intros [H1 H2]. split; [intros x _|intros f]; unfold lookup_var, lookup_func.
    - destruct (ctx_var c x) eqn:E; cbn; [rewrite (H1 _ _ E); reflexivity|tauto].
    - destruct (ctx_func c f) eqn:E; cbn; [rewrite (H2 _ _ E); reflexivity|tauto].
  Qed.

  (** More declarations and a larger bound never change a successful result. *)
  Lemma eval_extends n m c c' e v : n <= m -> extends c c' -> eval n c e = Ok v -> eval m c' e = Ok v.
  Proof.
    intros L X H. pose proof (eval_le bd parse_tpl show_value show_num (fun _ => False) n (fun f => f)
      m c c' e L (extends_crel _ _ _ X)) as G. rewrite H in G. exact G.
  Qed.

  (** A larger bound changes nothing unless the bound was used up. *)
  Lemma eval_fuel n m c e : n <= m -> eval n c e <> Fail FFuel -> eval m c e = eval n c e.
  Proof.
    intros L H. pose proof (eval_le bd parse_tpl show_value show_num (fun f => f <> FFuel) n
      (fun f => f eq_refl) m c c e L) as G.
    assert (R : crel (fun f => f <> FFuel) (fun x => free_in parse_tpl n x e = true) c c)
      by (split; intros; apply le_refl).
    specialize (G R). destruct (eval n c e) as [v|f]; cbn in G; [exact G|]. apply G. congruence.
  Qed.

  (** Only the free variables and the functions matter. *)
  Lemma eval_free n c c' e :
    (forall x, free_in parse_tpl n x e = true -> ctx_var c x = ctx_var c' x) ->
    (forall f, ctx_func c f = ctx_func c' f) -> eval n c e = eval n c' e.
  Proof.
    assert (H : forall c c', (forall x, free_in parse_tpl n x e = true -> ctx_var c x = ctx_var c' x) ->
      (forall f, ctx_func c f = ctx_func c' f) -> eval n c e <> Fail FFuel -> eval n c' e = eval n c e).
    { clear c c'. intros c c' H1 H2 H3.
      pose proof (eval_le bd parse_tpl show_value show_num (fun f => f <> FFuel) n (fun f => f eq_refl) n c c' e (Nat.le_refl n)) as G.
      assert (R : crel (fun f => f <> FFuel) (fun x => free_in parse_tpl n x e = true) c c').
      { split; intros; unfold lookup_var, lookup_func; [rewrite (H1 x) by assumption|rewrite H2]; apply le_refl. }
      specialize (G R). destruct (eval n c e) as [v|f]; cbn in G; [exact G|]. apply G. congruence. }
    intros H1 H2.
    assert (D : forall r : eres value, r = Fail FFuel \/ r <> Fail FFuel).
    { intros [a|[k| |]]; [right|right|right|left]; congruence. }
    destruct (D (eval n c e)) as [E|E].
    - destruct (D (eval n c' e)) as [E'|E']; [congruence|].
      apply H; auto. intros x Hx. symmetry. auto.
    - symmetry. apply H; auto.
  Qed.

  (** The child context that remembers the current expression changes nothing. *)
  Lemma eval_empty_child n c e : eval n (child c) e = eval n c e.
  Proof. apply eval_free; reflexivity. Qed.
End Consequences.
