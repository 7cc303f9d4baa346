(** The evaluator that names expressions has the results of [EvalModel]. *)
From Coq Require Import ZArith NArith Bool String List Lia.
From Verif Require Import Res Str NumberModel PrimModel Ast AstInd EvalModel EvalSpec EvalProofs BlameModel.
From Verif Require MapModel.
Import ListNotations.
Open Scope nat_scope.

(** Forget the named expression. *)
Definition kind {A} (x : bres A) : eres A := match x with BOk a => Ok a | BFail f _ => Fail f end.

(** The contexts declare the same things. *)
Definition sim (bc : bctx) (c : ctx) : Prop :=
  (forall x, ctx_var (map fst bc) x = ctx_var c x) /\ (forall f, ctx_func (map fst bc) f = ctx_func c f).

Lemma sim_public c : sim (public c) c.
Proof.
  assert (E : map fst (public c) = c) by (unfold public; rewrite map_map; apply map_id).
  split; intros; rewrite E; reflexivity.
Qed.
Lemma sim_child bc c e : sim bc c -> sim (child_with_expr bc e) c.
Proof. intros [H1 H2]. split; intros; cbn; auto. Qed.
Lemma bnext_fst bc kv vv k v : map fst (bnext_ctx bc kv vv k v) = next_ctx (map fst bc) kv vv k v.
Proof. unfold bnext_ctx, next_ctx. destruct kv; reflexivity. Qed.
Lemma sim_next bc c kv vv k v : sim bc c -> sim (bnext_ctx bc kv vv k v) (next_ctx c kv vv k v).
Proof.
  intros [H1 H2]. split; intros; rewrite bnext_fst.
  - rewrite !var_next, H1. reflexivity.
  - rewrite !func_next. apply H2.
Qed.

Section Kind.
  Lemma ebind_ext {A B} (x y : eres A) (f g : A -> eres B) :
    x = y -> (forall a, x = Ok a -> f a = g a) -> ebind x f = ebind y g.
  Proof. intros <- H. destruct x; cbn; auto. Qed.
  Lemma kind_bind {A B} (x : bres A) (f : A -> bres B) : kind (bbind x f) = ebind (kind x) (fun a => kind (f a)).
  Proof. destruct x; reflexivity. Qed.
  Lemma kind_map {A B} (f : A -> B) (x : bres A) : kind (bmap f x) = emap f (kind x).
  Proof. destruct x; reflexivity. Qed.
  Lemma kind_at {A} c (x : eres A) : kind (at_ctx c x) = x.
  Proof. destruct x; reflexivity. Qed.
  Lemma kind_collect {A B} (f : A -> bres B) (g : A -> eres B) l :
    (forall a, In a l -> kind (f a) = g a) -> kind (bcollect f l) = collect g l.
  Proof.
    induction l as [|a l IH]; intros H; cbn [bcollect collect]; [reflexivity|].
    rewrite kind_bind. apply ebind_ext; [apply H; left; reflexivity|]. intros b _. rewrite kind_map.
    f_equal. apply IH. intros x Hx. apply H. right. exact Hx.
  Qed.
  Lemma kind_splat f g v : (forall x, kind (f x) = g x) -> kind (bsplat f v) = splat g v.
  Proof.
    intros H. destruct v; cbn [bsplat splat]; rewrite ?kind_map, ?H; try reflexivity.
    f_equal. apply kind_collect. auto.
  Qed.
  Definition trop_kind (o : trop (bres value)) : trop (eres value) :=
    match o with
    | AttrSplat => AttrSplat | FullSplat => FullSplat | GetAttr s => GetAttr s
    | LegacyIndex i => LegacyIndex i | Index r => Index (kind r)
    end.
  Lemma kind_attr_path c ops : forall v, kind (battr_path c ops v) = attr_path (map trop_kind ops) v.
  Proof.
    induction ops as [|o ops IH]; intros v; [reflexivity|]. destruct o; try reflexivity.
    cbn [battr_path attr_path map trop_kind]. rewrite kind_bind, kind_at. apply ebind_ext; [reflexivity|]. auto.
  Qed.
  Lemma kind_traverse c ops : forall (skip : bool) v,
    kind (btraverse c skip ops v) = traverse skip (map trop_kind ops) v.
  Proof.
    induction ops as [|o ops IH]; intros skip v; [reflexivity|].
    destruct o; cbn [btraverse traverse map trop_kind].
    - rewrite kind_bind. apply ebind_ext; auto. apply kind_splat. apply kind_attr_path.
    - apply kind_splat. intros x. apply IH.
    - destruct skip; [apply IH|]. rewrite kind_bind, kind_at. apply ebind_ext; auto.
    - rewrite !kind_bind. apply ebind_ext; auto. apply ebind_ext; auto. intros a _. apply kind_at.
    - rewrite kind_bind, kind_at. apply ebind_ext; auto.
  Qed.
  Lemma kind_call_args c (b : bool) l : kind (bcall_args c b l) = call_args b (map kind l).
  Proof.
    induction l as [|a l IH]; [reflexivity|]. destruct l as [|a2 l].
    - cbn [bcall_args call_args map]. destruct b; [|apply kind_map]. rewrite kind_bind.
      apply ebind_ext; auto. intros. apply kind_at.
    - change (kind (bbind a (fun v => bmap (cons v) (bcall_args c b (a2 :: l)))) =
              ebind (kind a) (fun v => emap (cons v) (call_args b (map kind (a2 :: l))))).
      rewrite kind_bind. apply ebind_ext; auto. intros v _. rewrite kind_map, IH. reflexivity.
  Qed.
  Lemma kind_for_loop {A} bmk bcond (bbody : A -> bctx -> bres A) mk cond body items : forall acc,
    (forall k v, In (k, v) items -> kind (bcond (bmk k v)) = cond (mk k v)) ->
    (forall k v a, In (k, v) items -> kind (bbody a (bmk k v)) = body a (mk k v)) ->
    kind (bfor_loop bmk bcond bbody items acc) = for_loop mk cond body items acc.
  Proof.
    induction items as [|[k v] items IH]; intros acc H1 H2; [reflexivity|]. cbn [bfor_loop for_loop].
    rewrite kind_bind. apply ebind_ext; [apply H1; left; reflexivity|]. intros b _.
    assert (G : forall a, kind (bfor_loop bmk bcond bbody items a) = for_loop mk cond body items a).
    { intros a. apply IH; intros; [apply H1|apply H2]; right; assumption. }
    destruct b; [|apply G]. rewrite kind_bind. apply ebind_ext; [apply H2; left; reflexivity|]. auto.
  Qed.
  Lemma kind_tpl_loop bout out all prev next els : forall i acc,
    (forall el p n, In el els -> kind (bout el p n) = out el p n) ->
    kind (btpl_loop bout all prev next i els acc) = tpl_loop out all prev next i els acc.
  Proof.
    induction els as [|el els IH]; intros i acc H; [reflexivity|]. cbn [btpl_loop tpl_loop].
    rewrite kind_bind, kind_at. apply ebind_ext; auto. intros pn _. rewrite kind_bind.
    apply ebind_ext; [apply H; left; reflexivity|]. intros s _. apply IH. intros. apply H. right. assumption.
  Qed.
End Kind.

Section Erase.
  Context (bd : build) (parse_tpl : str -> option template)
          (show_value : value -> str) (show_num : num -> str).
  Notation beval_expr := (beval_expr bd show_num).
  Notation eval_expr := (eval_expr bd show_num).

  Lemma beval_expr_kind btpl tpl (H : forall bc c s, sim bc c -> kind (btpl bc s) = tpl c s) e :
    forall bc c, sim bc c -> kind (beval_expr btpl bc e) = eval_expr tpl c e.
  Proof.
    induction e as [ |b|n|s|l IH|m IH|t|x|e ops IHe IH|f args b IH|e IH|a b d IHa IHb IHd|o e IH
                   |l o r IHl IHr|kv vv coll key val g cond IHcoll IHkey IHval IHcond] using expr_ind';
      intros bc0 c S0; cbn [BlameModel.beval_expr EvalModel.eval_expr]; try reflexivity;
      match goal with |- context [child_with_expr bc0 ?e] => pose proof (sim_child bc0 c e S0) as S;
        set (bc := child_with_expr bc0 e) in *; clearbody bc end; clear S0 bc0.
    - rewrite kind_map. f_equal. apply kind_collect. intros e He. rewrite Forall_forall in IH. apply IH; auto.
    - rewrite kind_map. f_equal. apply kind_collect. intros [k v] He. rewrite Forall_forall in IH.
      destruct (IH _ He) as [IHk IHv]. cbn [fst snd] in *. rewrite kind_bind. apply ebind_ext.
      + destruct k as [s|e]; [reflexivity|]. rewrite kind_bind. apply ebind_ext; [apply IHk; exact S|].
        intros. apply kind_at.
      + intros s _. rewrite kind_map. f_equal. apply IHv. exact S.
    - apply H. exact S.
    - unfold blookup_var. rewrite kind_at. unfold lookup_var. rewrite (proj1 S). reflexivity.
    - rewrite kind_bind. apply ebind_ext; [apply IHe; exact S|]. intros v _. rewrite kind_traverse. f_equal.
      rewrite map_map. apply map_ext_in. intros o Ho. rewrite Forall_forall in IH.
      destruct o; cbn [trop_kind]; auto. f_equal. apply (IH _ Ho). exact S.
    - rewrite kind_bind. apply ebind_ext.
      { unfold blookup_func. rewrite kind_at. unfold lookup_func. rewrite (proj2 S). reflexivity. }
      intros fd _. rewrite kind_bind. apply ebind_ext.
      { rewrite kind_call_args, map_map. f_equal. apply map_ext_in. intros e He.
        rewrite Forall_forall in IH. apply IH; auto. }
      intros. apply kind_at.
    - apply IH. exact S.
    - rewrite kind_bind. apply ebind_ext; [apply IHa; exact S|]. intros v _. rewrite kind_bind, kind_at.
      apply ebind_ext; auto. intros [] _; auto.
    - rewrite kind_bind. apply ebind_ext; [apply IH; exact S|]. intros. apply kind_at.
    - rewrite kind_bind. apply ebind_ext; [apply IHl; exact S|]. intros v _. rewrite kind_bind.
      apply ebind_ext; [apply IHr; exact S|]. intros. apply kind_at.
    - rewrite kind_bind. apply ebind_ext.
      { rewrite kind_bind. apply ebind_ext; [apply IHcoll; exact S|]. intros. apply kind_at. }
      intros items _.
      assert (HC : forall k v,
        kind match cond with None => BOk true
             | Some e => bbind (beval_expr btpl (bnext_ctx bc kv vv k v) e)
                           (fun v0 => at_ctx (bnext_ctx bc kv vv k v) (as_bool v0)) end
        = match cond with None => Ok true | Some e => ebind (eval_expr tpl (next_ctx c kv vv k v) e) as_bool end).
      { intros k v. destruct cond as [cond|]; [|reflexivity]. rewrite kind_bind.
        apply ebind_ext; [apply IHcond; apply sim_next; exact S|]. intros. apply kind_at. }
      destruct key as [key|]; rewrite kind_map; f_equal; apply kind_for_loop; auto; intros k v a _.
      + rewrite !kind_bind. apply ebind_ext.
        { apply ebind_ext; [apply IHkey; apply sim_next; exact S|]. intros. apply kind_at. }
        intros s _. rewrite kind_bind. apply ebind_ext; [apply IHval; apply sim_next; exact S|].
        intros. apply kind_at.
      + rewrite kind_map. f_equal. apply IHval. apply sim_next. exact S.
  Qed.

  Section Tpl.
    Context (bev : bctx -> expr -> bres value) (ev : ctx -> expr -> eres value).
    Hypothesis H : forall bc c e, sim bc c -> kind (bev bc e) = ev c e.

    Lemma beval_elem_kind el : forall bc c p n, sim bc c ->
      kind (beval_elem show_value bev bc el p n) = eval_elem show_value ev c el p n.
    Proof.
      induction el as [s|e s|e t f s1 s2 s3 IHt IHf|kv vv e t s1 s2 IHt] using elem_ind';
        intros bc c p n S; cbn [beval_elem eval_elem].
      - reflexivity.
      - rewrite kind_map. f_equal. apply H. exact S.
      - rewrite kind_bind. apply ebind_ext.
        { rewrite kind_bind. apply ebind_ext; [apply H; exact S|]. intros. apply kind_at. }
        rewrite Forall_forall in IHt.
        intros [] _; [|destruct f as [f|]; [|reflexivity]]; apply kind_tpl_loop; intros el p' n' He.
        + apply IHt; auto.
        + cbn in IHf. rewrite Forall_forall in IHf. apply IHf; auto.
      - rewrite kind_bind. apply ebind_ext.
        { rewrite kind_bind. apply ebind_ext; [apply H; exact S|]. intros. apply kind_at. }
        intros items _. apply kind_for_loop; [reflexivity|]. intros k v a _. rewrite kind_map. f_equal.
        apply kind_tpl_loop. intros el p' n' He. rewrite Forall_forall in IHt. apply IHt; auto.
        apply sim_next. exact S.
    Qed.
    Lemma beval_template_kind t bc c : sim bc c ->
      kind (beval_template show_value bev bc t) = eval_template show_value ev c t.
    Proof. intros S. apply kind_tpl_loop. intros. apply beval_elem_kind. exact S. Qed.
    Lemma beval_tpl_text_kind s bc c : sim bc c ->
      kind (beval_tpl_text parse_tpl show_value bev bc s) = eval_tpl_text parse_tpl show_value ev c s.
    Proof.
      intros S. unfold beval_tpl_text, eval_tpl_text. destruct (parse_tpl s) as [t|]; [|reflexivity].
      assert (G : kind (bmap VStr (beval_template show_value bev bc t)) =
                  emap VStr (eval_template show_value ev c t)).
      { rewrite kind_map. f_equal. apply beval_template_kind. exact S. }
      destruct t as [|[s'|e s'|a1 a2 a3 a4 a5 a6|a1 a2 a3 a4 a5 a6] [|el2 t]]; try exact G.
      apply H. exact S.
    Qed.
  End Tpl.

  Notation eval := (eval bd parse_tpl show_value show_num).
  Notation beval := (beval bd parse_tpl show_value show_num).
  Lemma beval_kind n : forall bc c e, sim bc c -> kind (beval n bc e) = eval n c e.
  Proof.
    induction n as [|n IH]; intros bc c e S; cbn [BlameModel.beval EvalModel.eval];
      apply beval_expr_kind; auto; intros bc' c' s S'.
    apply beval_tpl_text_kind; auto.
  Qed.

  Section InPlace.
    Context (bev : bctx -> expr -> bres value) (ev : ctx -> expr -> eres value).
    Hypothesis H : forall bc c e, sim bc c -> kind (bev bc e) = ev c e.
    Definition errs_kind {A} (r : A * list (fail * option expr)) : A * list fail := (fst r, map fst (snd r)).

    Lemma breplace_kind bc c e errs : sim bc c ->
      errs_kind (breplace bev bc e errs) = replace ev c e (map fst errs).
    Proof.
      intros S. unfold breplace, replace. destruct errs as [|x errs]; [|reflexivity]. cbn [map].
      rewrite <- (H bc c e S). destruct (bev bc e); reflexivity.
    Qed.
    Lemma flat_kind {A B} (f : A -> B * list (fail * option expr)) (g : A -> B * list fail) l :
      (forall a, In a l -> errs_kind (f a) = g a) ->
      map fst (map f l) = map fst (map g l) /\ map fst (flat_map snd (map f l)) = flat_map snd (map g l).
    Proof.
      induction l as [|a l IH]; intros G; [split; reflexivity|]. destruct IH as [I1 I2].
      { intros x Hx. apply G. right. exact Hx. }
      pose proof (G a (or_introl eq_refl)) as E. cbn [map flat_map]. rewrite map_app, I1, I2, <- E.
      split; reflexivity.
    Qed.
    Lemma bin_place_kind e : forall bc c, sim bc c -> errs_kind (bin_place bev bc e) = in_place ev c e.
    Proof.
      induction e as [ |b|n|s|l IH|m IH|t|x|e ops IHe IH|f args b IH|e IH|a b d IHa IHb IHd|o e IH
                     |l o r IHl IHr|kv vv coll key val g cond IHcoll IHkey IHval IHcond] using expr_ind';
        intros bc0 c S0; cbn [bin_place in_place]; try reflexivity;
        try (match goal with |- context [child_with_expr bc0 ?e] => pose proof (sim_child bc0 c e S0) as S;
               set (bc := child_with_expr bc0 e) in *; clearbody bc end).
      - rewrite Forall_forall in IH.
        destruct (flat_kind (bin_place bev bc) (in_place ev c) l (fun a Ha => IH a Ha bc c S)) as [E1 E2].
        rewrite (breplace_kind _ c) by exact S0. rewrite E1, E2. reflexivity.
      - rewrite Forall_forall in IH. rewrite (breplace_kind _ c) by exact S0.
        match goal with |- replace _ _ (EObj (eobj_collect (map fst (map ?F m)))) _ =
                           replace _ _ (EObj (eobj_collect (map fst (map ?G m)))) _ =>
          destruct (flat_kind F G m) as [E1 E2] end; [|rewrite E1, E2; reflexivity].
        intros [k v] Ha. destruct (IH _ Ha) as [IHk IHv]. cbn [fst snd] in *.
        rewrite <- (IHv bc c S). destruct k as [s|e].
        + destruct (bin_place bev bc v); reflexivity.
        + cbn in IHk. rewrite <- (IHk bc c S). destruct (bin_place bev bc e), (bin_place bev bc v).
          unfold errs_kind. cbn [fst snd]. rewrite map_app. reflexivity.
      - rewrite (breplace_kind _ c) by exact S0. reflexivity.
      - rewrite (breplace_kind _ c) by exact S0. reflexivity.
      - rewrite Forall_forall in IH. rewrite (breplace_kind _ c) by exact S0.
        match goal with |- replace _ _ (ETrav _ (map fst (map ?F ops))) _ =
                           replace _ _ (ETrav _ (map fst (map ?G ops))) _ =>
          destruct (flat_kind F G ops) as [E1 E2] end; [|rewrite E1, E2; reflexivity].
        intros o Ho. destruct o as [| | |i|]; try reflexivity. pose proof (IH _ Ho) as I. cbn in I.
        rewrite <- (I bc c S). destruct (bin_place bev bc i); reflexivity.
      - rewrite Forall_forall in IH.
        destruct (flat_kind (bin_place bev bc) (in_place ev c) args (fun a Ha => IH a Ha bc c S)) as [E1 E2].
        rewrite (breplace_kind _ c) by exact S0. rewrite E1, E2. reflexivity.
      - rewrite <- (IH bc c S). destruct (bin_place bev bc e) as [e' errs]. unfold errs_kind at 2. cbn [fst snd].
        apply breplace_kind. exact S0.
      - assert (E : kind (bbind (bev bc a) (fun v => at_ctx bc (as_bool v))) = ebind (ev c a) as_bool).
        { rewrite kind_bind. apply ebind_ext; [apply H; exact S|]. intros. apply kind_at. }
        rewrite <- E. destruct (bbind (bev bc a) (fun v => at_ctx bc (as_bool v))) as [[|]|f ob]; cbn [kind].
        + rewrite <- (IHb bc c S). destruct (bin_place bev bc b) as [e' errs]. unfold errs_kind at 2. cbn [fst snd].
          apply breplace_kind. exact S0.
        + rewrite <- (IHd bc c S). destruct (bin_place bev bc d) as [e' errs]. unfold errs_kind at 2. cbn [fst snd].
          apply breplace_kind. exact S0.
        + reflexivity.
      - rewrite <- (IH bc c S). destruct (bin_place bev bc e) as [e' errs]. unfold errs_kind at 2. cbn [fst snd].
        apply breplace_kind. exact S0.
      - rewrite <- (IHl bc c S), <- (IHr bc c S).
        destruct (bin_place bev bc l) as [l' e1], (bin_place bev bc r) as [r' e2]. unfold errs_kind at 2 3. cbn [fst snd].
        rewrite <- map_app. apply breplace_kind. exact S0.
      - rewrite <- (IHcoll bc c S). destruct (bin_place bev bc coll) as [e' errs]. unfold errs_kind at 2. cbn [fst snd].
        apply breplace_kind. exact S0.
    Qed.
    Lemma bin_place_elem_kind el : forall bc c, sim bc c ->
      errs_kind (bin_place_elem bev bc el) = in_place_elem ev c el.
    Proof.
      induction el as [s|e s|e t f s1 s2 s3 IHt IHf|kv vv e t s1 s2 IHt] using elem_ind';
        intros bc c S; cbn [bin_place_elem in_place_elem]; [reflexivity| | |].
      - rewrite <- (bin_place_kind e bc c S). destruct (bin_place bev bc e); reflexivity.
      - rewrite <- (bin_place_kind e bc c S). destruct (bin_place bev bc e) as [e' errs].
        rewrite Forall_forall in IHt.
        destruct (flat_kind (bin_place_elem bev bc) (in_place_elem ev c) t (fun a Ha => IHt a Ha bc c S)) as [E1 E2].
        unfold errs_kind at 2. cbn [fst snd]. rewrite <- E1, <- E2. destruct f as [f|].
        + cbn in IHf. rewrite Forall_forall in IHf.
          destruct (flat_kind (bin_place_elem bev bc) (in_place_elem ev c) f (fun a Ha => IHf a Ha bc c S)) as [E3 E4].
          rewrite <- E3, <- E4. unfold errs_kind. cbn [fst snd]. rewrite !map_app. reflexivity.
        + unfold errs_kind. cbn [fst snd]. rewrite map_app. reflexivity.
      - rewrite <- (bin_place_kind e bc c S). destruct (bin_place bev bc e) as [e' errs].
        rewrite Forall_forall in IHt.
        destruct (flat_kind (bin_place_elem bev bc) (in_place_elem ev c) t (fun a Ha => IHt a Ha bc c S)) as [E1 E2].
        unfold errs_kind at 2. cbn [fst snd]. rewrite <- E1, <- E2. unfold errs_kind. cbn [fst snd].
        rewrite map_app. reflexivity.
    Qed.
    Lemma bin_place_template_kind t bc c : sim bc c ->
      errs_kind (bin_place_template bev bc t) = in_place_template ev c t.
    Proof.
      intros S. destruct (flat_kind (bin_place_elem bev bc) (in_place_elem ev c) t
        (fun a _ => bin_place_elem_kind a bc c S)) as [E1 E2].
      unfold bin_place_template, in_place_template, errs_kind. cbn [fst snd]. rewrite E1, E2. reflexivity.
    Qed.
    Lemma bin_place_struct_kind s : forall bc c, sim bc c ->
      errs_kind (bin_place_struct bev bc s) = in_place_struct ev c s.
    Proof.
      induction s as [k e|i ls b IH] using struct_ind'; intros bc c S; cbn [bin_place_struct in_place_struct].
      - rewrite <- (bin_place_kind e bc c S). destruct (bin_place bev bc e); reflexivity.
      - rewrite Forall_forall in IH.
        destruct (flat_kind (bin_place_struct bev bc) (in_place_struct ev c) b (fun a Ha => IH a Ha bc c S)) as [E1 E2].
        unfold errs_kind. cbn [fst snd]. rewrite E1, E2. reflexivity.
    Qed.
    Lemma bin_place_body_kind b bc c : sim bc c ->
      errs_kind (bin_place_body bev bc b) = in_place_body ev c b.
    Proof.
      intros S. destruct (flat_kind (bin_place_struct bev bc) (in_place_struct ev c) b
        (fun a _ => bin_place_struct_kind a bc c S)) as [E1 E2].
      unfold bin_place_body, in_place_body, errs_kind. cbn [fst snd]. rewrite E1, E2. reflexivity.
    Qed.
    Lemma beval_struct_kind s : forall bc c, sim bc c -> kind (beval_struct bev bc s) = eval_struct ev c s.
    Proof.
      induction s as [k e|i ls b IH] using struct_ind'; intros bc c S; cbn [beval_struct eval_struct];
        rewrite kind_map; f_equal; [apply H; exact S|]. rewrite Forall_forall in IH.
      apply kind_collect. intros a Ha. apply IH; auto.
    Qed.
    Lemma beval_body_kind b bc c : sim bc c -> kind (beval_body bev bc b) = eval_body ev c b.
    Proof. intros S. apply kind_collect. intros a _. apply beval_struct_kind. exact S. Qed.
  End InPlace.
End Erase.
