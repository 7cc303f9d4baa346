(** Scoping, for expressions, splats, function calls and templates: the evaluator meets its
    specifications. *)
From Coq Require Import ZArith NArith Bool String List Lia.
From Verif Require Import Res Str NumberModel PrimModel Ast AstInd EvalModel EvalSpec EvalProofs EvalWf EvalIp.
From Verif Require MapModel MapProofs.
Import ListNotations.
Open Scope nat_scope.

(** ** Scoping *)
Lemma funcname_eqb_eq a b : funcname_eqb a b = true <-> a = b.
Proof.
  unfold funcname_eqb. destruct a as [n1 f1], b as [n2 f2]. cbn [fn_namespace fn_name].
  rewrite andb_true_iff, seqb_eq.
  assert (H : forall a b, list_eqb seqb a b = true <-> a = b).
  { induction a as [|x a IH]; intros [|y b]; cbn [list_eqb]; split; intros H; try discriminate; auto.
    - apply andb_true_iff in H. destruct H as [H1 H2]. apply seqb_eq in H1. apply IH in H2. congruence.
    - injection H as -> ->. rewrite seqb_refl. apply IH. reflexivity. }
  rewrite H. split; [intros [-> ->]; reflexivity|intros E; injection E; auto].
Qed.
Lemma get_insert_func f g (v : funcdef) m :
  MapModel.get funcname_eqb f (fst (MapModel.insert funcname_eqb g v m)) =
  if funcname_eqb f g then Some v else MapModel.get funcname_eqb f m.
Proof.
  unfold MapModel.get. induction m as [|[k w] m IH]; cbn [MapModel.insert].
  - cbn. destruct (funcname_eqb f g); reflexivity.
  - destruct (funcname_eqb g k) eqn:E.
    + apply funcname_eqb_eq in E. subst k. cbn. destruct (funcname_eqb f g); reflexivity.
    + destruct (MapModel.insert funcname_eqb g v m) as [m' o]. cbn [fst] in IH |- *. cbn.
      destruct (funcname_eqb f k) eqn:E2.
      * apply funcname_eqb_eq in E2. subst k. destruct (funcname_eqb f g) eqn:E3; [|reflexivity].
        apply funcname_eqb_eq in E3. subst. rewrite (proj2 (funcname_eqb_eq g g) eq_refl) in E. discriminate.
      * exact IH.
Qed.

Lemma ctx_of_lookup scopes :
  (forall x, ctx_var (ctx_of scopes) x = innermost_var x scopes) /\
  (forall f, ctx_func (ctx_of scopes) f = innermost_func f scopes).
Proof.
  induction scopes as [|h scopes [IH1 IH2]]; [split; reflexivity|].
  cbn [ctx_of innermost_var innermost_func].
  assert (G : forall h s c, exists s',
    fold_left declare h (s :: c) = s' :: c /\
    (forall x, MapModel.get seqb x (sc_vars s') =
       match last_var x h with Some v => Some v | None => MapModel.get seqb x (sc_vars s) end) /\
    (forall f, MapModel.get funcname_eqb f (sc_funcs s') =
       match last_func f h with Some v => Some v | None => MapModel.get funcname_eqb f (sc_funcs s) end)).
  { clear. induction h as [|d h IH]; intros s c; cbn [fold_left last_var last_func].
    - exists s. auto.
    - destruct d as [x v|f d]; cbn [declare declare_var declare_func].
      + destruct (IH (Scope (fst (MapModel.insert seqb x v (sc_vars s))) (sc_funcs s)) c) as [s' [H1 [H2 H3]]].
        exists s'. split; [exact H1|]. split.
        * intros y. rewrite H2. cbn [sc_vars]. rewrite get_insert. destruct (last_var y h); auto.
          destruct (seqb y x); reflexivity.
        * intros f. rewrite H3. destruct (last_func f h); auto.
      + destruct (IH (Scope (sc_vars s) (fst (MapModel.insert funcname_eqb f d (sc_funcs s)))) c) as [s' [H1 [H2 H3]]].
        exists s'. split; [exact H1|]. split.
        * intros y. rewrite H2. destruct (last_var y h); auto.
        * intros g. rewrite H3. cbn [sc_funcs]. rewrite get_insert_func. destruct (last_func g h); auto.
          destruct (funcname_eqb g f); reflexivity. }
  destruct (G h empty_scope (ctx_of scopes)) as [s' [H1 [H2 H3]]]. unfold child. rewrite H1. split.
  - intros x. cbn [ctx_var]. rewrite H2, IH1. destruct (last_var x h); reflexivity.
  - intros f. cbn [ctx_func]. rewrite H3, IH2. destruct (last_func f h); reflexivity.
Qed.

(** ** For expressions *)
Lemma Forall2_impl' {A B} (P Q : A -> B -> Prop) l l' :
  (forall a b, P a b -> Q a b) -> Forall2 P l l' -> Forall2 Q l l'.
Proof. intros I H. induction H; constructor; auto. Qed.
Lemma enumerate_spec l : forall i, length (enumerate i l) = length l /\
  forall j x, nth_error l j = Some x -> nth_error (enumerate i l) j = Some (VNum (PosInt (i + Z.of_nat j)), x).
Proof.
  induction l as [|v l IH]; intros i; cbn [enumerate length].
  - split; auto. intros [|j] x; discriminate.
  - destruct (IH (i + 1)%Z) as [H1 H2]. split; [lia|]. intros [|j] x H; cbn [nth_error] in *.
    + injection H as ->. unfold num_of_u64. do 4 f_equal. lia.
    + rewrite (H2 _ _ H). do 4 f_equal. lia.
Qed.
Lemma nth_error_ext {A} (l l' : list A) : length l = length l' ->
  (forall i x, nth_error l i = Some x -> nth_error l' i = Some x) -> l = l'.
Proof.
  revert l'. induction l as [|a l IH]; intros [|b l'] L H; try discriminate; auto.
  pose proof (H 0 a eq_refl) as H0. injection H0 as ->. f_equal. apply IH; [cbn in L; lia|].
  intros i x Hx. apply (H (S i) x Hx).
Qed.
Lemma collection_iterates v items : collection v = Ok items <-> iterates v items.
Proof.
  split.
  - destruct v; cbn [collection]; try discriminate; intros H; injection H as <-.
    + destruct (enumerate_spec l 0) as [H1 H2]. constructor; auto.
    + constructor.
  - intros H. destruct H as [l items H1 H2|m]; cbn [collection]; [|reflexivity]. f_equal.
    destruct (enumerate_spec l 0) as [H3 H4]. apply nth_error_ext; [congruence|].
    intros i x H. assert (L : i < length l) by (rewrite <- H3; apply nth_error_Some; congruence).
    destruct (nth_error l i) as [y|] eqn:E; [|apply nth_error_None in E; lia].
    rewrite (H4 _ _ E) in H. injection H as <-. rewrite (H2 _ _ E). do 4 f_equal.
Qed.

(** A loop body folded over the selected elements. *)
Section FoldM.
  Context {A B : Type} (f : A -> B -> eres A).
  Fixpoint foldM (l : list B) (a : A) : eres A :=
    match l with [] => Ok a | b :: l => ebind (f a b) (foldM l) end.
End FoldM.
Lemma for_loop_spec {A} mk cond (body : A -> ctx -> eres A) test items acc r :
  (forall c b, cond c = Ok b <-> test c (VBool b)) ->
  for_loop mk cond body items acc = Ok r <->
  exists sel, selects (fun it => test (mk (fst it) (snd it))) items sel /\
    foldM (fun a it => body a (mk (fst it) (snd it))) sel acc = Ok r.
Proof.
  intros T. revert acc. induction items as [|[k v] items IH]; intros acc; cbn [for_loop].
  - split.
    + intros H. exists []. split; [constructor|exact H].
    + intros [sel [H1 H2]]. inversion H1; subst. exact H2.
  - split.
    + intros H. apply ebind_ok in H. destruct H as [b [H1 H2]]. apply T in H1. destruct b.
      * apply ebind_ok in H2. destruct H2 as [a [H2 H3]]. apply IH in H3. destruct H3 as [sel [H3 H4]].
        exists ((k, v) :: sel). split; [apply sel_true; auto|]. cbn [foldM fst snd]. rewrite H2. exact H4.
      * apply IH in H2. destruct H2 as [sel [H2 H3]]. exists sel. split; [apply sel_false; auto|exact H3].
    + intros [sel [H1 H2]]. inversion H1 as [|? ? l' Ht Hs|? ? l' Ht Hs]; subst; cbn [fst snd] in Ht;
        apply T in Ht; rewrite Ht; cbn [ebind].
      * cbn [foldM fst snd] in H2. apply ebind_ok in H2. destruct H2 as [a [H2 H3]]. rewrite H2. cbn [ebind].
        apply IH. eauto.
      * apply IH. eauto.
Qed.
Lemma foldM_collect {B} (f : B -> eres value) sel : forall acc r,
  foldM (fun a it => emap (fun v => a ++ [v]) (f it)) sel acc = Ok r <->
  exists vs, Forall2 (fun it v => f it = Ok v) sel vs /\ r = acc ++ vs.
Proof.
  induction sel as [|it sel IH]; intros acc r; cbn [foldM].
  - split.
    + intros H. injection H as <-. exists []. split; [constructor|rewrite app_nil_r; reflexivity].
    + intros [vs [H ->]]. inversion H; subst. rewrite app_nil_r. reflexivity.
  - split.
    + intros H. apply ebind_ok in H. destruct H as [a [H1 H2]]. apply emap_ok in H1. destruct H1 as [v [H1 ->]].
      apply IH in H2. destruct H2 as [vs [H2 ->]]. exists (v :: vs). split; [constructor; auto|].
      rewrite <- app_assoc. reflexivity.
    + intros [vs [H ->]]. inversion H as [|? v ? vs' H1 H2]; subst. rewrite H1. cbn [emap ebind].
      apply IH. exists vs'. split; auto. rewrite <- app_assoc. reflexivity.
Qed.
Lemma foldM_entries {B} (kf : B -> eres str) (vf : B -> eres value) (g : bool) sel : forall acc r,
  foldM (fun a it => ebind (kf it) (fun k => ebind (vf it) (fun v => entry_insert g k v a))) sel acc = Ok r <->
  exists kvs, Forall2 (fun it kv => kf it = Ok (fst kv) /\ vf it = Ok (snd kv)) sel kvs /\
    foldM (fun a kv => entry_insert g (fst kv) (snd kv) a) kvs acc = Ok r.
Proof.
  induction sel as [|it sel IH]; intros acc r; cbn [foldM].
  - split.
    + intros H. exists []. split; [constructor|exact H].
    + intros [kvs [H1 H2]]. inversion H1; subst. exact H2.
  - split.
    + intros H. apply ebind_ok in H. destruct H as [a [H1 H2]]. apply ebind_ok in H1. destruct H1 as [k [H1 H3]].
      apply ebind_ok in H3. destruct H3 as [v [H3 H4]]. apply IH in H2. destruct H2 as [kvs [H5 H6]].
      exists ((k, v) :: kvs). split; [constructor; auto|]. cbn [foldM fst snd]. rewrite H4. exact H6.
    + intros [kvs [H1 H2]]. inversion H1 as [|? [k v] ? kvs' [H3 H4] H5]; subst. cbn [fst snd] in *.
      cbn [foldM fst snd] in H2. rewrite H3. cbn [ebind]. rewrite H4. cbn [ebind].
      apply ebind_ok in H2. destruct H2 as [a [H2 H6]]. rewrite H2. cbn [ebind]. apply IH. eauto.
Qed.
Lemma get_none {V} k (m : list (str * V)) : MapModel.get seqb k m = None <-> ~ In k (map fst m).
Proof.
  rewrite <- contains_in. unfold MapModel.get, MapModel.contains_key.
  destruct (MapModel.get_key_value seqb k m); cbn; split; intros H; try discriminate; auto.
  contradiction H. reflexivity.
Qed.
Lemma insert_new {V} k (v : V) m : ~ In k (map fst m) -> fst (MapModel.insert seqb k v m) = m ++ [(k, v)].
Proof.
  intros H. apply insert_fresh. apply Forall_forall. intros k' Hk. apply seqb_neq. intros ->. contradiction.
Qed.
Lemma foldM_plain kvs : forall acc r, NoDup (map fst acc) ->
  foldM (fun a kv => entry_insert false (fst kv) (snd kv) a) kvs acc = Ok r <->
  NoDup (map fst (acc ++ kvs)) /\ r = acc ++ kvs.
Proof.
  induction kvs as [|[k v] kvs IH]; intros acc r N; cbn [foldM fst snd].
  - rewrite app_nil_r. split; [intros H; injection H as <-; auto|intros [_ ->]; reflexivity].
  - unfold entry_insert. destruct (MapModel.get seqb k acc) eqn:E.
    + cbn [ebind]. split; [discriminate|]. intros [H _]. rewrite map_app in H. cbn [map fst] in H.
      apply NoDup_remove_2 in H. destruct H. apply in_or_app. left.
      destruct (in_dec str_dec k (map fst acc)) as [I|I]; auto. apply get_none in I. congruence.
    + apply get_none in E. rewrite insert_new by exact E. cbn [ebind].
      assert (N' : NoDup (map fst (acc ++ [(k, v)]))).
      { rewrite <- (insert_new k v acc E). apply insert_nodup. exact N. }
      rewrite (IH _ _ N'). rewrite <- app_assoc. reflexivity.
Qed.

(** *** Grouping *)
Lemma distinct_nodup ks : NoDup (distinct ks) /\ (forall k, In k (distinct ks) <-> In k ks).
Proof.
  induction ks as [|k ks [IH1 IH2]]; cbn [distinct].
  - split; [constructor|tauto].
  - split.
    + constructor.
      * intros H. apply filter_In in H. destruct H as [_ H]. rewrite seqb_refl in H. discriminate.
      * apply NoDup_filter. exact IH1.
    + intros x. cbn [In]. rewrite filter_In, IH2. destruct (str_dec x k) as [->|N].
      * tauto.
      * assert (E : negb (seqb x k) = true) by (apply negb_true_iff; apply seqb_neq; exact N). rewrite E. 
        intuition congruence.
Qed.
Lemma distinct_snoc ks k : distinct (ks ++ [k]) = if existsb (seqb k) ks then distinct ks else distinct ks ++ [k].
Proof.
  induction ks as [|x ks IH]; cbn [distinct app existsb].
  - reflexivity.
  - rewrite IH. destruct (seqb k x) eqn:E; cbn [orb].
    + apply seqb_eq in E. subst x. destruct (existsb (seqb k) ks); auto. f_equal. rewrite filter_app. cbn [filter].
      rewrite seqb_refl. cbn. rewrite app_nil_r. reflexivity.
    + destruct (existsb (seqb k) ks); auto. rewrite filter_app. cbn [filter]. rewrite E. reflexivity.
Qed.
Lemma values_snoc x kvs k v :
  values_of x (kvs ++ [(k, v)]) = if seqb k x then values_of x kvs ++ [v] else values_of x kvs.
Proof.
  unfold values_of. rewrite filter_app. cbn [filter fst]. rewrite map_app.
  destruct (seqb k x); cbn; [reflexivity|apply app_nil_r].
Qed.
Lemma seqb_sym a b : seqb a b = seqb b a.
Proof.
  destruct (seqb a b) eqn:E; symmetry.
  - apply seqb_eq in E. subst. apply seqb_refl.
  - apply seqb_neq. apply seqb_neq in E. congruence.
Qed.
Lemma get_map {V} (f : str -> V) k ks :
  MapModel.get seqb k (map (fun k => (k, f k)) ks) = if existsb (seqb k) ks then Some (f k) else None.
Proof.
  unfold MapModel.get. induction ks as [|x ks IH]; cbn; auto. destruct (seqb k x) eqn:E; cbn; auto.
  apply seqb_eq in E. subst. reflexivity.
Qed.
Lemma insert_map {V} (f : str -> V) k (v : V) ks : NoDup ks -> In k ks ->
  fst (MapModel.insert seqb k v (map (fun k => (k, f k)) ks)) =
  map (fun x => (x, if seqb k x then v else f x)) ks.
Proof.
  intros N I. induction ks as [|x ks IH]; [destruct I|]. cbn [map MapModel.insert].
  destruct (seqb k x) eqn:E.
  - cbn [fst]. f_equal. apply map_ext_in. intros y Hy. inversion N; subst.
    apply seqb_eq in E. subst. destruct (seqb x y) eqn:E; auto. apply seqb_eq in E. subst. contradiction.
  - destruct I as [->|I]; [rewrite seqb_refl in E; discriminate|]. inversion N; subst.
    specialize (IH H2 I). destruct (MapModel.insert seqb k v _). cbn [fst] in *. rewrite IH. reflexivity.
Qed.
Lemma grouped_snoc kvs k v : group_push k v (grouped kvs) = Ok (grouped (kvs ++ [(k, v)])).
Proof.
  unfold group_push, grouped. rewrite get_map, map_app. cbn [map fst]. rewrite distinct_snoc.
  assert (X : existsb (seqb k) (distinct (map fst kvs)) = existsb (seqb k) (map fst kvs)).
  { apply eq_true_iff_eq. rewrite !existsb_exists. split; intros [x [H1 H2]]; exists x; split; auto;
      apply (proj2 (distinct_nodup (map fst kvs))); auto. }
  rewrite X. destruct (distinct_nodup (map fst kvs)) as [N D].
  destruct (existsb (seqb k) (map fst kvs)) eqn:E.
  - apply existsb_exists in E. destruct E as [x [E1 E2]]. apply seqb_eq in E2. subst x.
    rewrite insert_map; [|exact N|apply D; exact E1]. f_equal. apply map_ext_in. intros x Hx.
    rewrite values_snoc. destruct (seqb k x) eqn:Ex; auto. apply seqb_eq in Ex. subst. reflexivity.
  - assert (NI : ~ In k (map fst kvs)).
    { intros I. assert (existsb (seqb k) (map fst kvs) = true); [|congruence]. apply existsb_exists.
      exists k. split; auto. apply seqb_refl. }
    rewrite insert_new.
    + f_equal. rewrite map_app. cbn [map]. f_equal.
      * apply map_ext_in. intros x Hx. rewrite values_snoc. destruct (seqb k x) eqn:Ex; auto.
        apply seqb_eq in Ex. subst. apply D in Hx. contradiction.
      * rewrite values_snoc, seqb_refl.
        assert (Z : values_of k kvs = []); [|rewrite Z; reflexivity].
        unfold values_of. clear -NI. induction kvs as [|[k' v'] kvs IH]; auto. cbn [filter fst map] in *.
        destruct (seqb k' k) eqn:Ex; [apply seqb_eq in Ex; subst; exfalso; apply NI; left; reflexivity|].
        apply IH. intros I. apply NI. right. exact I.
    + rewrite map_map. cbn [fst]. rewrite map_id. intros I. apply D in I. contradiction.
Qed.
Lemma foldM_grouped kvs : forall pre r,
  foldM (fun a kv => entry_insert true (fst kv) (snd kv) a) kvs (grouped pre) = Ok r <-> r = grouped (pre ++ kvs).
Proof.
  induction kvs as [|[k v] kvs IH]; intros pre r; cbn [foldM fst snd].
  - rewrite app_nil_r. split; [intros H; injection H; auto|intros ->; reflexivity].
  - cbn [entry_insert]. rewrite grouped_snoc. cbn [ebind]. rewrite IH, <- app_assoc. reflexivity.
Qed.

Lemma as_bool_ok v b : as_bool v = Ok b <-> v = VBool b.
Proof. destruct v; cbn; split; intros H; try discriminate; congruence. Qed.
Lemma object_key_ok show_num v k : object_key show_num v = Ok k <-> key_of show_num v k.
Proof.
  split.
  - destruct v as [|[]| | | |]; cbn; intros H; try discriminate; injection H as <-; constructor.
  - intros []; reflexivity.
Qed.

Section Eval.
  Context (bd : build) (parse_tpl : str -> option template)
          (show_value : value -> str) (show_num : num -> str).
  Notation eval := (eval bd parse_tpl show_value show_num).

  Notation test_in := (test_in bd parse_tpl show_value show_num).
  Notation rest := (rest bd parse_tpl show_value show_num).
  Lemma eval_eq n : exists tpl, eval n = eval_expr bd show_num tpl.
  Proof. destruct n; cbn [EvalModel.eval]; eauto. Qed.


  Lemma for_array n c kv vv coll val g cond r :
    eval n c (EFor kv vv coll None val g cond) = Ok r <->
    exists cv items sel vs, eval n c coll = Ok cv /\ iterates cv items /\
      selects (fun it => test_in n cond (next_ctx c kv vv (fst it) (snd it))) items sel /\
      Forall2 (fun it v => eval n (next_ctx c kv vv (fst it) (snd it)) val = Ok v) sel vs /\
      r = VArr vs.
  Proof.
    unfold test_in. destruct (eval_eq n) as [tpl U]. rewrite !U. cbn [eval_expr].
    assert (T : forall c0 b,
      match cond with Some e => ebind (eval_expr bd show_num tpl c0 e) as_bool | None => Ok true end = Ok b <->
      match cond with None => VBool b = VBool true | Some e => eval_expr bd show_num tpl c0 e = Ok (VBool b) end).
    { intros c0 b. destruct cond as [e|]; [|split; congruence]. destruct (eval_expr bd show_num tpl c0 e); cbn.
      - rewrite as_bool_ok. split; congruence.
      - split; discriminate. }
    split.
    - intros H. apply ebind_ok in H. destruct H as [items [H1 H2]]. apply ebind_ok in H1. destruct H1 as [cv [H1 H3]].
      apply emap_ok in H2. destruct H2 as [vs [H2 ->]].
      apply (for_loop_spec _ _ _ (fun c0 v => match cond with None => v = VBool true | Some e => eval_expr bd show_num tpl c0 e = Ok v end) _ _ _ T) in H2. destruct H2 as [sel [H2 H4]].
      apply foldM_collect in H4. destruct H4 as [vs' [H4 ->]].
      exists cv, items, sel, vs'. apply collection_iterates in H3. auto.
    - intros [cv [items [sel [vs [H1 [H2 [H3 [H4 ->]]]]]]]]. rewrite H1. cbn [ebind].
      apply collection_iterates in H2. rewrite H2. cbn [ebind].
      assert (G : for_loop (next_ctx c kv vv)
        (fun c0 => match cond with Some e => ebind (eval_expr bd show_num tpl c0 e) as_bool | None => Ok true end)
        (fun acc c0 => emap (fun v => acc ++ [v]) (eval_expr bd show_num tpl c0 val)) items [] = Ok vs).
      { apply (for_loop_spec _ _ _ (fun c0 v => match cond with None => v = VBool true | Some e => eval_expr bd show_num tpl c0 e = Ok v end) _ _ _ T). exists sel. split; auto.
        apply (foldM_collect (fun it => eval_expr bd show_num tpl (next_ctx c kv vv (fst it) (snd it)) val)). eauto. }
      rewrite G. reflexivity.
  Qed.

  Lemma for_object n c kv vv coll key val (g : bool) cond r :
    eval n c (EFor kv vv coll (Some key) val g cond) = Ok r <->
    exists cv items sel kvs, eval n c coll = Ok cv /\ iterates cv items /\
      selects (fun it => test_in n cond (next_ctx c kv vv (fst it) (snd it))) items sel /\
      Forall2 (fun it e =>
        (exists k, eval n (next_ctx c kv vv (fst it) (snd it)) key = Ok k /\ key_of show_num k (fst e)) /\
        eval n (next_ctx c kv vv (fst it) (snd it)) val = Ok (snd e)) sel kvs /\
      (if g then r = VObj (grouped kvs) else NoDup (map fst kvs) /\ r = VObj kvs).
  Proof.
    unfold test_in. destruct (eval_eq n) as [tpl U]. rewrite !U. cbn [eval_expr].
    assert (T : forall c0 b,
      match cond with Some e => ebind (eval_expr bd show_num tpl c0 e) as_bool | None => Ok true end = Ok b <->
      match cond with None => VBool b = VBool true | Some e => eval_expr bd show_num tpl c0 e = Ok (VBool b) end).
    { intros c0 b. destruct cond as [e|]; [|split; congruence]. destruct (eval_expr bd show_num tpl c0 e); cbn.
      - rewrite as_bool_ok. split; congruence.
      - split; discriminate. }
    assert (K : forall c0 k, ebind (eval_expr bd show_num tpl c0 key) (object_key show_num) = Ok k <->
      exists v, eval_expr bd show_num tpl c0 key = Ok v /\ key_of show_num v k).
    { intros c0 k. split.
      - intros H. apply ebind_ok in H. destruct H as [v [H1 H2]]. apply object_key_ok in H2. eauto.
      - intros [v [H1 H2]]. rewrite H1. cbn [ebind]. apply object_key_ok. exact H2. }
    assert (F : forall kvs m, foldM (fun a kv => entry_insert g (fst kv) (snd kv) a) kvs [] = Ok m <->
       (if g then m = grouped kvs else NoDup (map fst kvs) /\ m = kvs)).
    { intros kvs m. destruct g.
      - exact (foldM_grouped kvs [] m).
      - apply (foldM_plain kvs []). constructor. }
    split.
    - intros H. apply ebind_ok in H. destruct H as [items [H1 H2]]. apply ebind_ok in H1. destruct H1 as [cv [H1 H3]].
      apply emap_ok in H2. destruct H2 as [m [H2 ->]].
      apply (for_loop_spec _ _ _ (fun c0 v => match cond with None => v = VBool true | Some e => eval_expr bd show_num tpl c0 e = Ok v end) _ _ _ T) in H2. destruct H2 as [sel [H2 H4]].
      apply foldM_entries in H4. destruct H4 as [kvs [H4 H5]].
      exists cv, items, sel, kvs. apply collection_iterates in H3. split; auto. split; auto. split; auto. split.
      + eapply Forall2_impl'; [|exact H4]. cbn beta. intros it e [E1 E2]. split; auto. apply K. exact E1.
      + apply F in H5. destruct g; [congruence|]. destruct H5 as [H5 ->]. auto.
    - intros [cv [items [sel [kvs [H1 [H2 [H3 [H4 H5]]]]]]]]. rewrite H1. cbn [ebind].
      apply collection_iterates in H2. rewrite H2. cbn [ebind].
      assert (R : exists m, r = VObj m /\ foldM (fun a kv => entry_insert g (fst kv) (snd kv) a) kvs [] = Ok m).
      { destruct g; [exists (grouped kvs)|destruct H5 as [H5 ->]; exists kvs]; split; auto; apply F; auto. }
      destruct R as [m [-> R]].
      assert (G : for_loop (next_ctx c kv vv)
        (fun c0 => match cond with Some e => ebind (eval_expr bd show_num tpl c0 e) as_bool | None => Ok true end)
        (fun acc c0 => ebind (ebind (eval_expr bd show_num tpl c0 key) (object_key show_num)) (fun k =>
           ebind (eval_expr bd show_num tpl c0 val) (fun v => entry_insert g k v acc))) items [] = Ok m).
      { apply (for_loop_spec _ _ _ (fun c0 v => match cond with None => v = VBool true | Some e => eval_expr bd show_num tpl c0 e = Ok v end) _ _ _ T). exists sel. split; auto.
        apply (foldM_entries (fun it => ebind (eval_expr bd show_num tpl (next_ctx c kv vv (fst it) (snd it)) key) (object_key show_num))
                 (fun it => eval_expr bd show_num tpl (next_ctx c kv vv (fst it) (snd it)) val)).
        exists kvs. split; auto. eapply Forall2_impl'; [|exact H4]. cbn beta. intros it e [E1 E2]. split; auto.
        apply K. exact E1. }
      rewrite G. reflexivity.
  Qed.

  (** ** Traversals, in terms of evaluating [value.rest] *)
  Lemma trav_literal n c e ops v : wf_value v -> eval n c e = Ok v ->
    eval n c (ETrav e ops) = eval n c (ETrav (expr_of_value v) ops).
  Proof.
    intros W H. destruct (eval_unfold bd parse_tpl show_value show_num n) as [tpl U]. rewrite !U in *. cbn [eval_expr].
    rewrite H, (eval_expr_literal bd show_num tpl v c W). reflexivity.
  Qed.
  Lemma trav_cons n c e o ops v : wf_ctx c -> eval n c e = Ok v ->
    match o with GetAttr _ | Index _ | LegacyIndex _ => True | _ => False end ->
    eval n c (ETrav e (o :: ops)) = ebind (eval n c (ETrav e [o])) (rest n c ops).
  Proof.
    intros W H Ho. unfold rest. pose proof (eval_wf bd parse_tpl show_value show_num n c e v W H) as Wv.
    assert (S1 : forall w, eval n c (ETrav e [o]) = Ok w -> wf_value w)
      by (intros w; apply eval_wf; exact W).
    destruct (eval_unfold bd parse_tpl show_value show_num n) as [tpl U].
    rewrite !U in *. cbn [eval_expr map] in *. rewrite H in *. cbn [ebind] in *.
    assert (B : forall x : eres value, ebind (ebind x (fun v => Ok v)) (fun v0 => eval n c (ETrav (expr_of_value v0) ops)) =
                ebind x (fun v0 => eval n c (ETrav (expr_of_value v0) ops))) by (intros [a|f]; reflexivity).
    destruct o as [| |s|i|i]; try contradiction; cbn [traverse] in *.
    - rewrite B. destruct (object_value v s); cbn [ebind] in *; auto. rewrite U. cbn [eval_expr].
      rewrite (eval_expr_literal bd show_num tpl a c); [reflexivity|]. apply S1. reflexivity.
    - rewrite B. destruct (ebind (eval_expr bd show_num tpl c i) (index_value v)); cbn [ebind] in *; auto.
      rewrite U. cbn [eval_expr]. rewrite (eval_expr_literal bd show_num tpl a c); [reflexivity|]. apply S1. reflexivity.
    - rewrite B. destruct (array_value v i); cbn [ebind] in *; auto. rewrite U. cbn [eval_expr].
      rewrite (eval_expr_literal bd show_num tpl a c); [reflexivity|]. apply S1. reflexivity.
  Qed.

  Lemma rest_traverse tpl n c ops v : (forall c e, eval n c e = eval_expr bd show_num tpl c e) -> wf_value v ->
    rest n c ops v = traverse false (map (fun o => match o with
         | AttrSplat => AttrSplat | FullSplat => FullSplat | GetAttr s => GetAttr s
         | LegacyIndex i => LegacyIndex i | Index e => Index (eval_expr bd show_num tpl c e) end) ops) v.
  Proof.
    intros U W. unfold rest. rewrite U. cbn [eval_expr]. rewrite (eval_expr_literal bd show_num tpl v c W). reflexivity.
  Qed.
  Lemma full_splat n c e ops v : wf_ctx c -> eval n c e = Ok v ->
    eval n c (ETrav e (FullSplat :: ops)) =
    match v with
    | VArr l => emap VArr (collect (rest n c ops) l)
    | VNull => Ok (VArr [])
    | v => emap (fun x => VArr [x]) (rest n c ops v)
    end.
  Proof.
    intros W H. pose proof (eval_wf bd parse_tpl show_value show_num n c e v W H) as Wv.
    destruct (eval_unfold bd parse_tpl show_value show_num n) as [tpl U].
    assert (G := fun v => rest_traverse tpl n c ops v U).
    rewrite !U in *. cbn [eval_expr map] in *. rewrite H. cbn [ebind traverse].
    destruct v; cbn [splat]; try (rewrite G by exact Wv); try reflexivity.
    f_equal. apply collect_ext. intros a Ha. rewrite G; auto. apply wf_arr in Wv. rewrite Forall_forall in Wv. auto.
  Qed.
  Lemma attr_splat n c e path ops v : wf_ctx c -> eval n c e = Ok v -> no_attr ops ->
    eval n c (ETrav e (AttrSplat :: map GetAttr path ++ ops)) =
    ebind (match v with
           | VArr l => emap VArr (collect (rest n c (map GetAttr path)) l)
           | VNull => Ok (VArr [])
           | v => emap (fun x => VArr [x]) (rest n c (map GetAttr path) v)
           end) (rest n c ops).
  Proof.
    intros W H NA. pose proof (eval_wf bd parse_tpl show_value show_num n c e v W H) as Wv.
    destruct (eval_unfold bd parse_tpl show_value show_num n) as [tpl U].
    assert (G := fun v ops => rest_traverse tpl n c ops v U).
    rewrite U in *. cbn [eval_expr map] in *. rewrite H. cbn [ebind traverse]. rewrite map_app.
    set (g := fun o : trop expr => _) in *.
    assert (P : forall v, attr_path (map g (map GetAttr path) ++ map g ops) v =
                          traverse false (map g (map GetAttr path)) v).
    { clear -NA. induction path as [|s path IH]; intros v; cbn [map app attr_path traverse].
      - destruct ops as [|[| |s| |] ops]; try reflexivity. contradiction.
      - cbn [g]. destruct (object_value v s); cbn [ebind]; auto. }
    assert (T : forall v, traverse true (map g (map GetAttr path) ++ map g ops) v = traverse false (map g ops) v).
    { clear -NA. induction path as [|s path IH]; intros v; cbn [map app traverse].
      - destruct ops as [|[| |s| |] ops]; try reflexivity. contradiction.
      - cbn [g]. apply IH. }
    set (inner := match v with VArr l => _ | _ => _ end).
    assert (E : splat (attr_path (map g (map GetAttr path) ++ map g ops)) v = inner /\ post (fun _ => True) wf_value inner).
    { split.
      - unfold inner. destruct v; cbn [splat]; try (rewrite P, G by exact Wv; reflexivity); try reflexivity.
        f_equal. apply collect_ext. intros a Ha. rewrite P, G; [reflexivity|]. apply wf_arr in Wv. rewrite Forall_forall in Wv. auto.
      - assert (R : forall w, wf_value w -> post (fun _ => True) wf_value (rest n c (map GetAttr path) w)).
        { intros w Ww. destruct (rest n c (map GetAttr path) w) eqn:E; cbn; auto. unfold rest in E.
          exact (eval_wf bd parse_tpl show_value show_num n c _ _ W E). }
        unfold inner. destruct v; try (eapply post_map; [apply R; exact Wv|]; intros a Ha; apply wf_arr; auto).
        + cbn. exact I.
        + eapply post_map; [apply post_collect|].
          * intros a Ha. apply R. apply wf_arr in Wv. rewrite Forall_forall in Wv. auto.
          * intros l' Hl. apply wf_arr. exact Hl. }
    destruct E as [-> E2]. destruct inner as [w|f]; cbn [ebind]; auto. rewrite T. rewrite G by exact E2. reflexivity.
  Qed.
  Lemma index_access n c e l i : eval n c e = Ok (VArr l) ->
    eval n c (ETrav e [LegacyIndex i]) =
    match nth_error l (N.to_nat i) with Some x => Ok x | None => Err (KIndex i) end.
  Proof.
    intros H. destruct (eval_unfold bd parse_tpl show_value show_num n) as [tpl U]. rewrite U in *.
    cbn [eval_expr map]. rewrite H. cbn [ebind traverse array_value].
    destruct (N.ltb_spec i (N.of_nat (length l))) as [L|L].
    - destruct (nth_error l (N.to_nat i)) eqn:E; [reflexivity|]. apply nth_error_None in E. lia.
    - assert (E : nth_error l (N.to_nat i) = None) by (apply nth_error_None; lia). rewrite E. reflexivity.
  Qed.
  Lemma index_expr n c e i l k : eval n c e = Ok (VArr l) -> eval n c i = Ok (VNum k) ->
    eval n c (ETrav e [Index i]) =
    match as_u64 k with
    | Some z => match nth_error l (N.to_nat (Z.to_N z)) with Some x => Ok x | None => Err (KIndex (Z.to_N z)) end
    | None => Err (KUnexpected (VNum k) (lit "an unsigned integer"))
    end.
  Proof.
    intros H1 H2. destruct (eval_unfold bd parse_tpl show_value show_num n) as [tpl U]. rewrite U in *.
    cbn [eval_expr map]. rewrite H1. cbn [ebind traverse]. rewrite H2. cbn [ebind index_value].
    destruct (as_u64 k) as [z|]; [|reflexivity]. cbn [array_value].
    destruct (N.ltb_spec (Z.to_N z) (N.of_nat (length l))) as [L|L].
    - destruct (nth_error l (N.to_nat (Z.to_N z))) eqn:E; [reflexivity|]. apply nth_error_None in E. lia.
    - assert (E : nth_error l (N.to_nat (Z.to_N z)) = None) by (apply nth_error_None; lia). rewrite E. reflexivity.
  Qed.
End Eval.

(** ** Function calls *)
Section PtypeInd.
  Context (P : ptype -> Prop).
  Hypothesis H1 : P PAny. Hypothesis H2 : P PBool. Hypothesis H3 : P PNumber. Hypothesis H4 : P PString.
  Hypothesis H5 : forall t, P t -> P (PArray t). Hypothesis H6 : forall t, P t -> P (PObject t).
  Hypothesis H7 : forall ts, Forall P ts -> P (POneOf ts). Hypothesis H8 : forall t, P t -> P (PNullable t).
  Fixpoint ptype_ind' (t : ptype) : P t :=
    match t with
    | PAny => H1 | PBool => H2 | PNumber => H3 | PString => H4
    | PArray t => H5 t (ptype_ind' t) | PObject t => H6 t (ptype_ind' t) | PNullable t => H8 t (ptype_ind' t)
    | POneOf ts => H7 ts ((fix go l : Forall P l :=
        match l with [] => Forall_nil _ | x :: l => Forall_cons _ (ptype_ind' x) (go l) end) ts)
    end.
End PtypeInd.
Lemma satisfied_has_type t : alternatives t -> forall v, satisfied t v = true <-> has_type t v.
Proof.
  induction t as [ | | | |t IH|t IH|ts IH|t IH] using ptype_ind'; intros A v; cbn [satisfied has_type alternatives] in *.
  - tauto.
  - destruct v; split; intros H; try discriminate; try (destruct H; discriminate); eauto.
  - destruct v; split; intros H; try discriminate; try (destruct H; discriminate); eauto.
  - destruct v; split; intros H; try discriminate; try (destruct H; discriminate); eauto.
  - destruct v; split; intros H; try discriminate; try (destruct H as [? [? ?]]; discriminate).
    + rewrite forallb_forall in H. exists l. split; auto. intros x Hx. apply IH; auto.
    + destruct H as [l' [E H]]. injection E as <-. apply forallb_forall. intros x Hx. apply IH; auto.
  - destruct v; split; intros H; try discriminate; try (destruct H as [? [? ?]]; discriminate).
    + rewrite forallb_forall in H. exists m. split; auto. intros k x Hx. apply IH; auto. apply (H _ Hx).
    + destruct H as [m' [E H]]. injection E as <-. apply forallb_forall. intros [k x] Hx. apply IH; eauto.
  - destruct A as [A1 A2]. apply fold_and in A2. rewrite existsb_exists, (fold_or (fun t => has_type t v)).
    rewrite Forall_forall in *. split.
    + intros [t [I1 I2]]. right. exists t. split; auto. apply IH; auto.
    + intros [E|[t [I1 I2]]]; [contradiction|]. exists t. split; auto. apply IH; auto.
  - destruct v; try (rewrite (IH A); split; [tauto|intros [E|H]; [discriminate|exact H]]). tauto.
Qed.
Lemma bad_positional_none params : Forall alternatives params -> forall args pos, length args = length params ->
  bad_positional pos args params = None <-> Forall2 has_type params args.
Proof.
  intros A. induction A as [|t params A1 A2 IH]; intros [|a args] pos L; try discriminate; cbn [bad_positional].
  - split; auto.
  - destruct (satisfied t a) eqn:E.
    + rewrite (IH args (S pos)) by (cbn in L; lia). apply (satisfied_has_type t A1) in E. split.
      * intros H. constructor; auto.
      * intros H. inversion H; auto.
    + split; [discriminate|]. intros H. inversion H as [|? ? ? ? H1 H2]; subst.
      apply (satisfied_has_type t A1) in H1. congruence.
Qed.
Lemma bad_variadic_none t : alternatives t -> forall args pos,
  bad_variadic pos t args = None <-> Forall (has_type t) args.
Proof.
  intros A. induction args as [|a args IH]; intros pos; cbn [bad_variadic].
  - split; auto.
  - destruct (satisfied t a) eqn:E.
    + rewrite IH. apply (satisfied_has_type t A) in E. split; [auto|intros H; inversion H; auto].
    + split; [discriminate|]. intros H. inversion H as [|? ? H1 H2]; subst. apply (satisfied_has_type t A) in H1. congruence.
Qed.

Lemma F2_length {A B} (P : A -> B -> Prop) l l' : Forall2 P l l' -> length l = length l'.
Proof. intros H. induction H; cbn; auto. Qed.
Lemma fits_split fd args : fits fd args <->
  length (fd_params fd) <= length args /\
  Forall2 has_type (fd_params fd) (firstn (length (fd_params fd)) args) /\
  match fd_variadic fd with
  | None => length args = length (fd_params fd)
  | Some t => Forall (has_type t) (skipn (length (fd_params fd)) args)
  end.
Proof.
  unfold fits. split.
  - intros [pos [var [-> [H1 H2]]]]. pose proof (F2_length _ _ _ H1) as L.
    rewrite app_length. rewrite firstn_app, skipn_app, L, firstn_all, skipn_all, Nat.sub_diag. cbn [firstn skipn].
    rewrite app_nil_r. split; [lia|]. split; auto. destruct (fd_variadic fd); [exact H2|]. subst var. cbn. lia.
  - intros [H1 [H2 H3]]. exists (firstn (length (fd_params fd)) args), (skipn (length (fd_params fd)) args).
    split; [symmetry; apply firstn_skipn|]. split; auto. destruct (fd_variadic fd); auto.
    rewrite <- H3. apply skipn_all.
Qed.
Lemma call_fits fd args : well_declared fd -> fits fd args ->
  call_func fd args = match fd_func fd (FArgs args (length (fd_params fd))) with inl v => inl v | inr m => inr (CUser m) end.
Proof.
  intros [A1 A2] H. apply fits_split in H. destruct H as [H1 [H2 H3]]. unfold call_func.
  replace (Nat.ltb (length args) (length (fd_params fd))) with false by (symmetry; apply Nat.ltb_ge; lia). cbn [orb].
  assert (L : length (firstn (length (fd_params fd)) args) = length (fd_params fd)) by (rewrite firstn_length; lia).
  replace (bad_positional 0 (firstn (length (fd_params fd)) args) (fd_params fd)) with (@None nat)
    by (symmetry; apply bad_positional_none; auto).
  destruct (fd_variadic fd) as [t|].
  - cbn [andb]. replace (bad_variadic (length (fd_params fd)) t (skipn (length (fd_params fd)) args)) with (@None nat)
      by (symmetry; apply bad_variadic_none; auto). reflexivity.
  - cbn [andb]. replace (Nat.ltb (length (fd_params fd)) (length args)) with false by (symmetry; apply Nat.ltb_ge; lia).
    reflexivity.
Qed.
(** A call that does not fit is rejected, whatever the function body is. *)
Lemma call_misfit fd args : well_declared fd -> ~ fits fd args ->
  exists err, (forall m, err <> CUser m) /\
    forall body, call_func (FuncDef body (fd_params fd) (fd_variadic fd)) args = inr err.
Proof.
  intros [A1 A2] N. unfold call_func. cbn [fd_params fd_variadic fd_func].
  destruct (Nat.ltb (length args) (length (fd_params fd)) || _) eqn:E1; [eexists; split; [|reflexivity]; discriminate|].
  destruct (bad_positional 0 _ _) eqn:E2; [eexists; split; [|reflexivity]; discriminate|].
  destruct (match fd_variadic fd with Some p => _ | None => None end) eqn:E3; [eexists; split; [|reflexivity]; discriminate|].
  exfalso. apply N. apply fits_split. apply orb_false_iff in E1. destruct E1 as [E1 E4]. apply Nat.ltb_ge in E1.
  split; auto. split.
  - apply bad_positional_none in E2; auto. rewrite firstn_length. lia.
  - destruct (fd_variadic fd) as [t|].
    + apply bad_variadic_none in E3; auto.
    + cbn [andb] in E4. apply Nat.ltb_ge in E4. lia.
Qed.

(** ** Strip markers *)
Lemma is_space_space c : is_space c = true <-> space c.
Proof.
  unfold is_space, space. rewrite !andb_true_iff, !negb_true_iff, !N.eqb_neq. tauto.
Qed.
Lemma trim_spaces_spec s : exists sp, Forall space sp /\ s = sp ++ trim_spaces s /\
  match trim_spaces s with c :: _ => ~ space c | [] => True end.
Proof.
  induction s as [|c s IH]; cbn [trim_spaces].
  - exists []. auto.
  - destruct (is_space c) eqn:E.
    + destruct IH as [sp [H1 [H2 H3]]]. exists (c :: sp). split; [constructor; auto; apply is_space_space; exact E|].
      split; auto. cbn. congruence.
    + exists []. split; [constructor|]. split; auto. intros H. apply is_space_space in H. congruence.
Qed.
Lemma ndec (a b : N) : {a = b} + {a <> b}.
Proof. apply N.eq_dec. Qed.
Ltac split_n := repeat match goal with |- context [match ?p with _ => _ end] => is_var p; destruct p end;
  try reflexivity; try exact I; try congruence.
(** The line break at the front of [s]. *)
Definition cut_break (s : str) : str :=
  match s with 13%N :: 10%N :: r => r | 10%N :: r => r | r => r end.
Lemma cut_break_spec s :
  (exists b, line_break b /\ s = b ++ cut_break s) \/ (~ starts_break s /\ cut_break s = s).
Proof.
  destruct s as [|x s]; [right; split; auto; intros [b [r [[->| ->] H]]]; discriminate|].
  destruct (ndec x 10) as [->|N1].
  - left. exists [10%N]. split; [left; reflexivity|reflexivity].
  - destruct (ndec x 13) as [->|N2].
    + destruct s as [|y s]; [right; split; auto; intros [b [r [[->| ->] H]]]; discriminate|].
      destruct (ndec y 10) as [->|N3].
      * left. exists [13%N; 10%N]. split; [right; reflexivity|reflexivity].
      * right. split.
        -- intros [b [r [[->| ->] H]]]; cbn in H; congruence.
        -- unfold cut_break. split_n.
    + right. split.
      * intros [b [r [[->| ->] H]]]; cbn in H; congruence.
      * unfold cut_break. split_n.
Qed.
Lemma trim_start_cut s : trim_start s = cut_break (trim_spaces s).
Proof. unfold trim_start, cut_break. destruct (trim_spaces s); [reflexivity|]. split_n. Qed.
Lemma trim_start_spec s : strips_left s (trim_start s).
Proof.
  rewrite trim_start_cut. destruct (trim_spaces_spec s) as [sp [H1 [H2 H3]]]. exists sp. split; auto.
  destruct (cut_break_spec (trim_spaces s)) as [[b [B1 B2]]|[B1 B2]].
  - left. exists b. split; auto. rewrite <- B2. exact H2.
  - right. rewrite B2. auto.
Qed.
Definition cut_break_end (s : str) : str :=
  match s with 10%N :: 13%N :: r => r | 10%N :: r => r | r => r end.
Lemma cut_break_end_spec s :
  (exists r, s = 10%N :: 13%N :: r /\ cut_break_end s = r) \/
  (exists r, s = 10%N :: r /\ cut_break_end s = r /\ match r with 13%N :: _ => False | _ => True end) \/
  (cut_break_end s = s /\ match s with 10%N :: _ => False | _ => True end).
Proof.
  destruct s as [|x s]; [right; right; auto|].
  destruct (ndec x 10) as [->|N1].
  - destruct s as [|y s]; [right; left; exists []; auto|].
    destruct (ndec y 13) as [->|N2].
    + left. exists s. auto.
    + right. left. exists (y :: s). split; auto. split; [unfold cut_break_end|]; split_n.
  - right. right. unfold cut_break_end. split; split_n.
Qed.
Lemma trim_end_cut s : trim_end s = rev (cut_break_end (trim_spaces (rev s))).
Proof. unfold trim_end, cut_break_end. f_equal. destruct (trim_spaces (rev s)); [reflexivity|]. split_n. Qed.
Lemma Forall_rev' {A} (P : A -> Prop) l : Forall P l -> Forall P (rev l).
Proof. intros H. apply Forall_forall. intros x Hx. apply in_rev in Hx. rewrite Forall_forall in H. auto. Qed.
Lemma trim_end_spec s : strips_right s (trim_end s).
Proof.
  rewrite trim_end_cut. destruct (trim_spaces_spec (rev s)) as [sp [H1 [H2 H3]]].
  assert (E : s = rev (trim_spaces (rev s)) ++ rev sp).
  { rewrite <- rev_app_distr, <- H2, rev_involutive. reflexivity. }
  exists (rev sp). split; [apply Forall_rev'; exact H1|].
  destruct (cut_break_end_spec (trim_spaces (rev s))) as [[r [B1 B2]]|[[r [B1 [B2 B3]]]|[B1 B2]]].
  - left. exists [13%N; 10%N]. split; [right; reflexivity|]. split; [|discriminate].
    rewrite B2. rewrite B1 in E. cbn [rev] in E. rewrite E at 1. rewrite <- !app_assoc. reflexivity.
  - left. exists [10%N]. split; [left; reflexivity|]. rewrite B2. split.
    + rewrite B1 in E. cbn [rev] in E. rewrite E at 1. rewrite <- !app_assoc. reflexivity.
    + intros _ r' Hr. apply (f_equal (@rev N)) in Hr. rewrite rev_involutive, rev_app_distr in Hr. cbn in Hr.
      rewrite Hr in B3. exact B3.
  - right. rewrite B1. split; [exact E|]. split.
    + intros [b [r [[->| ->] Hr]]]; apply (f_equal (@rev N)) in Hr; rewrite rev_involutive, rev_app_distr in Hr;
        cbn in Hr; rewrite Hr in B2; exact B2.
    + intros c r Hr. apply (f_equal (@rev N)) in Hr. rewrite rev_involutive, rev_app_distr in Hr. cbn in Hr.
      rewrite Hr in H3. exact H3.
Qed.
(** What is removed is determined by the text. *)
Lemma spaces_split sp sp' a b : Forall space sp -> Forall space sp' ->
  match a with c :: _ => ~ space c | [] => True end -> match b with c :: _ => ~ space c | [] => True end ->
  sp ++ a = sp' ++ b -> sp = sp' /\ a = b.
Proof.
  intros H1. revert sp'. induction H1 as [|x sp H1 H2 IH]; intros sp' H3 Ha Hb E.
  - destruct H3 as [|y sp' H4 H5]; [auto|]. cbn in E. subst a. contradiction.
  - destruct H3 as [|y sp' H4 H5]; cbn in E.
    + subst b. contradiction.
    + injection E as <- E. destruct (IH sp' H5 Ha Hb E) as [-> ->]. auto.
Qed.
Lemma break_no_space b r : line_break b -> match b ++ r with c :: _ => ~ space c | [] => True end.
Proof. intros [->| ->]; cbn; intros [_ [H1 H2]]; congruence. Qed.
Lemma strips_left_det s a b : strips_left s a -> strips_left s b -> a = b.
Proof.
  intros [sp [H1 [[x [Bx Ex]]|[Ex [Nx Sx]]]]] [sp' [H2 [[y [By Ey]]|[Ey [Ny Sy]]]]]; subst s.
  - destruct (spaces_split sp sp' (x ++ a) (y ++ b) H1 H2 (break_no_space _ _ Bx) (break_no_space _ _ By) Ey) as [_ E].
    destruct Bx as [->| ->], By as [->| ->]; cbn in E; congruence.
  - destruct (spaces_split sp sp' (x ++ a) b H1 H2 (break_no_space _ _ Bx) Sy Ey) as [_ <-].
    destruct Ny. exists x, a. auto.
  - destruct (spaces_split sp sp' a (y ++ b) H1 H2 Sx (break_no_space _ _ By) Ey) as [_ ->].
    destruct Nx. exists y, b. auto.
  - apply (spaces_split sp sp' a b H1 H2 Sx Sy Ey).
Qed.
Lemma strips_right_det s a b : strips_right s a -> strips_right s b -> a = b.
Proof.
  assert (R : forall sp sp' a b, Forall space sp -> Forall space sp' ->
    match rev a with c :: _ => ~ space c | [] => True end -> match rev b with c :: _ => ~ space c | [] => True end ->
    a ++ sp = b ++ sp' -> a = b).
  { intros sp sp' a' b' H1 H2 H3 H4 E. apply (f_equal (@rev N)) in E. rewrite !rev_app_distr in E.
    destruct (spaces_split _ _ _ _ (Forall_rev' _ _ H1) (Forall_rev' _ _ H2) H3 H4 E) as [_ Q].
    apply (f_equal (@rev N)) in Q. rewrite !rev_involutive in Q. exact Q. }
  assert (NB : forall a b, line_break b -> match rev (a ++ b) with c :: _ => ~ space c | [] => True end).
  { intros a' b' [->| ->]; rewrite rev_app_distr; cbn; intros [_ [Q1 Q2]]; congruence. }
  assert (NS : forall a : str, (forall c r, a = r ++ [c] -> ~ space c) -> match rev a with c :: _ => ~ space c | [] => True end).
  { intros a' Q. destruct (rev a') as [|c r] eqn:E; auto. apply (Q c (rev r)).
    rewrite <- (rev_involutive a'), E. reflexivity. }
  intros [sp [H1 [[x [Bx [Ex Cx]]]|[Ex [Nx Sx]]]]] [sp' [H2 [[y [By [Ey Cy]]]|[Ey [Ny Sy]]]]]; subst s.
  - rewrite !app_assoc in Ey. pose proof (R sp sp' _ _ H1 H2 (NB _ _ Bx) (NB _ _ By) Ey) as E.
    destruct Bx as [->| ->], By as [->| ->].
    + apply app_inj_tail in E. tauto.
    + change [13%N; 10%N] with ([13%N] ++ [10%N]) in E. rewrite app_assoc in E. apply app_inj_tail in E.
      destruct E as [E _]. destruct (Cx eq_refl b E).
    + change [13%N; 10%N] with ([13%N] ++ [10%N]) in E. rewrite app_assoc in E. apply app_inj_tail in E.
      destruct E as [E _]. symmetry in E. destruct (Cy eq_refl a E).
    + apply app_inv_tail in E. exact E.
  - rewrite app_assoc in Ey. pose proof (R sp sp' _ _ H1 H2 (NB _ _ Bx) (NS _ Sy) Ey) as E. subst b.
    destruct Ny. exists x, a. auto.
  - rewrite app_assoc in Ey. pose proof (R sp sp' _ _ H1 H2 (NS _ Sx) (NB _ _ By) Ey) as E. subst a.
    destruct Nx. exists y, b. auto.
  - apply (R sp sp' _ _ H1 H2 (NS _ Sx) (NS _ Sy) Ey).
Qed.

(** ** Templates *)
Lemma elem_edges el : strip_start (elem_strip el) = left_edge el /\ strip_end (elem_strip el) = right_edge el.
Proof.
  destruct el as [s|e s|cond t f a b s|kv vv coll t a s]; cbn; auto;
    destruct a, s; auto.
Qed.
Lemma tpl_loop_render (out : elem -> strip -> strip -> eres str) (out' : elem -> bool -> bool -> eres str) all prev next :
  Forall (fun el => forall p q, out el p q = out' el (strip_end p) (strip_start q)) all ->
  tpl_loop out all prev next 0 all [] = render_seq out' (strip_end prev) all (strip_start next).
Proof.
  intros H.
  assert (G : forall els pre acc, all = pre ++ els ->
    tpl_loop out all prev next (length pre) els acc =
    emap (app acc) (render_seq out'
      (match rev pre with [] => strip_end prev | el :: _ => right_edge el end) els (strip_start next))).
  { induction els as [|el els IH]; intros pre acc E; cbn [tpl_loop render_seq].
    - cbn [emap]. rewrite app_nil_r. reflexivity.
    - assert (N : exists p q, neighbours all prev next (length pre) = Ok (p, q) /\
        strip_end p = match rev pre with [] => strip_end prev | el :: _ => right_edge el end /\
        strip_start q = match els with [] => strip_start next | el' :: _ => left_edge el' end).
      { unfold neighbours.
        assert (P : match rev pre with [] => pre = [] | x :: _ => nth_error all (length pre - 1) = Some x /\ length pre <> 0 end).
        { destruct (rev pre) as [|x r] eqn:R.
          - rewrite <- (rev_involutive pre), R. reflexivity.
          - assert (pre = rev r ++ [x]) by (rewrite <- (rev_involutive pre), R; reflexivity). subst pre.
            rewrite app_length. cbn [length]. split; [|lia]. replace (length (rev r) + 1 - 1) with (length (rev r)) by lia.
            rewrite E, nth_error_app1 by (rewrite app_length; cbn; lia). rewrite nth_error_app2, Nat.sub_diag by lia. reflexivity. }
        assert (Q : match els with [] => length all = length pre + 1 | x :: _ => nth_error all (length pre + 1) = Some x /\ length all > length pre + 1 end).
        { rewrite E. destruct els as [|y els]; rewrite app_length; cbn [length]; [lia|]. split; [|lia].
          rewrite nth_error_app2 by lia. replace (length pre + 1 - length pre) with 1 by lia. reflexivity. }
        destruct (rev pre) as [|x r] eqn:R.
        - subst pre. cbn [length] in *. cbn [Nat.eqb]. destruct els as [|y els].
          + rewrite Q. cbn. eauto.
          + destruct Q as [Q1 Q2]. replace (Nat.eqb (length all) 1) with false by (symmetry; apply Nat.eqb_neq; lia).
            cbn [andb]. rewrite Q1. cbn [emap]. eexists _, _. split; [reflexivity|]. split; auto. apply elem_edges.
        - destruct P as [P1 P2]. replace (Nat.eqb (length pre) 0) with false by (symmetry; apply Nat.eqb_neq; lia).
          cbn [andb]. rewrite P1. destruct els as [|y els].
          + replace (Nat.eqb (length pre) (length all - 1)) with true by (symmetry; apply Nat.eqb_eq; lia).
            cbn [emap]. eexists _, _. split; [reflexivity|]. split; auto. apply elem_edges.
          + destruct Q as [Q1 Q2]. replace (Nat.eqb (length pre) (length all - 1)) with false by (symmetry; apply Nat.eqb_neq; lia).
            rewrite Q1. cbn [emap ebind]. eexists _, _. split; [reflexivity|]. split; apply elem_edges. }
      destruct N as [p [q [-> [Np Nq]]]]. cbn [ebind fst snd].
      rewrite Forall_forall in H. rewrite (H el); [|rewrite E; apply in_or_app; right; left; reflexivity].
      rewrite Np, Nq. set (o := out' el _ _). destruct o as [s|f]; cbn [ebind emap]; auto.
      specialize (IH (pre ++ [el]) (acc ++ s)). rewrite app_length in IH. cbn [length] in IH.
      rewrite Nat.add_1_r in IH. rewrite IH by (rewrite E, <- app_assoc; reflexivity).
      rewrite rev_app_distr. cbn [rev app]. set (x := render_seq out' _ els _). destruct x as [u|f]; cbn [emap]; auto.
      rewrite app_assoc. reflexivity. }
  change 0 with (length (@nil elem)). rewrite (G all [] []) by reflexivity. cbn [rev]. set (x := render_seq _ _ _ _). destruct x; reflexivity.
Qed.
Lemma for_loop_concat mk (f : ctx -> eres str) items : forall acc,
  for_loop mk (fun _ => Ok true) (fun acc c => emap (fun s => acc ++ s) (f c)) items acc =
  emap (app acc) (concat_res (map (fun it => f (mk (fst it) (snd it))) items)).
Proof.
  induction items as [|[k v] items IH]; intros acc; cbn [for_loop concat_res map fst snd ebind].
  - cbn [emap]. rewrite app_nil_r. reflexivity.
  - destruct (f (mk k v)) as [s|e]; cbn [emap ebind]; auto. rewrite IH.
    destruct (concat_res _) as [u|e]; cbn [emap]; auto. rewrite app_assoc. reflexivity.
Qed.
Lemma eval_elem_render show_value ev el : forall c p q,
  eval_elem show_value ev c el p q = render_elem show_value ev c el (strip_end p) (strip_start q).
Proof.
  induction el as [s|e s|cond t f a b d IHt IHf|kv vv coll t a d IH] using elem_ind'; intros c p q;
    cbn [eval_elem render_elem].
  - reflexivity.
  - reflexivity.
  - destruct (ebind (ev c cond) as_bool) as [x|x]; cbn [ebind]; auto.
    assert (G : forall l p q, Forall (fun el => forall c p q, eval_elem show_value ev c el p q = render_elem show_value ev c el (strip_end p) (strip_start q)) l ->
      tpl_loop (eval_elem show_value ev c) l p q 0 l [] = render_seq (render_elem show_value ev c) (strip_end p) l (strip_start q)).
    { intros l p' q' F. apply tpl_loop_render. eapply Forall_impl; [|exact F]. auto. }
    destruct x, f as [f|]; auto.
  - destruct (ebind (ev c coll) collection) as [items|x]; cbn [ebind]; auto.
    rewrite (for_loop_concat (next_ctx c kv vv) (fun c0 => tpl_loop (eval_elem show_value ev c0) t a d 0 t [])).
    assert (G : forall c, tpl_loop (eval_elem show_value ev c) t a d 0 t [] = render_seq (render_elem show_value ev c) (strip_end a) t (strip_start d)).
    { intros c'. apply tpl_loop_render. eapply Forall_impl; [|exact IH]. auto. }
    rewrite (map_ext _ (fun it => render_seq (render_elem show_value ev (next_ctx c kv vv (fst it) (snd it))) (strip_end a) t (strip_start d))) by (intros; apply G).
    destruct (concat_res _); reflexivity.
Qed.
Lemma template_render show_value ev c t : eval_template show_value ev c t = render show_value ev c t.
Proof.
  unfold eval_template, render. apply (tpl_loop_render _ _ t StripNone StripNone).
  apply Forall_forall. intros el _. apply eval_elem_render.
Qed.

(** ** Panics *)
Lemma eval_panic bd parse_tpl show_value show_num n c e : wf_ctx c ->
  eval bd parse_tpl show_value show_num n c e = Fail FPanic ->
  exists o, op_occurs parse_tpl o n e /\ op_panics bd o.
Proof.
  intros W H.
  pose proof (eval_post bd show_value show_num parse_tpl
    (fun f => f = FPanic -> exists o, op_occurs parse_tpl o n e /\ op_panics bd o)) as G.
  specialize (G (fun k E => ltac:(discriminate E)) (fun E => ltac:(discriminate E)) n c e W).
  rewrite H in G. cbn [post] in G. apply G; auto.
  clear G H. unfold op_ok. intros o Ho P E. eauto.
Qed.

(** ** Objects with plain keys never merge *)
Lemma fold_and' {A} (P : A -> Prop) l : fold_right (fun x Q => P x /\ Q) True l <-> Forall P l.
Proof. apply fold_and. Qed.
Lemma plain_no_merge simp : (forall s, simp (EStr s) = EStr s) -> forall e, plain_keys e -> no_merge simp e.
Proof.
  intros S. induction e as [ |b|n|s|l IH|m IH|t|x|e ops IHe IH|f args b IH|e IH|a b d IHa IHb IHd|o e IH
     |l o r IHl IHr|kv vv coll key val g cond IHcoll IHkey IHval IHcond] using expr_ind';
    cbn [plain_keys no_merge]; auto; try tauto.
  - rewrite (fold_and' plain_keys), (fold_and' (no_merge simp)), !Forall_forall in *. auto.
  - intros [D H]. split.
    + assert (E : map (fun p => simp_key simp (fst p)) m = map fst m).
      { clear -H S. induction m as [|[k v] m IHm]; auto. cbn [map fold_right fst snd] in *. destruct H as [H1 [_ H2]].
        rewrite IHm by exact H2. f_equal. destruct k as [s|[]]; cbn in *; try contradiction; auto. rewrite S. reflexivity. }
      rewrite E. exact D.
    + clear D. induction IH as [|[k v] m [H1 H2] H3 IHm]; auto. cbn [fold_right fst snd] in *. destruct H as [A [B C]].
      split; [|split; auto]. destruct k as [s|[]]; cbn in *; try contradiction; auto.
  - assert (G : forall P Q : trop expr -> Prop, (forall o, In o ops -> P o -> Q o) ->
      fold_right (fun o R => P o /\ R) True ops -> fold_right (fun o R => Q o /\ R) True ops).
    { intros P Q. rewrite !fold_and', !Forall_forall. auto. }
    apply G. rewrite Forall_forall in IH. intros o Ho. specialize (IH o Ho). destruct o; cbn in *; auto.
  - rewrite (fold_and' plain_keys), (fold_and' (no_merge simp)), !Forall_forall in *. auto.
Qed.

(** ** Values through expressions and back *)
Lemma value_of_expr_of_value show interp v : wf_value v -> value_of_expr show interp (expr_of_value v) = v.
Proof.
  induction v as [ |b|n|s|l IH|m IH] using value_ind'; intros W; cbn [expr_of_value value_of_expr]; auto.
  - f_equal. rewrite map_map. apply wf_arr in W. rewrite Forall_forall in *.
    rewrite <- (map_id l) at 2. apply map_ext_in. auto.
  - apply wf_obj in W. destruct W as [W1 W2]. rewrite obj_literal by exact W1. f_equal. rewrite map_map. cbn [fst snd key_str].
    rewrite Forall_forall in *.
    rewrite (map_ext_in _ (fun e => e)).
    + rewrite map_id. apply from_iter_nodup. exact W1.
    + intros [k v] H. cbn [fst snd]. specialize (IH _ H). specialize (W2 _ H). cbn [fst snd] in *. rewrite IH; auto.
Qed.

(** ** Where numbers panic *)
Lemma num_rem_panic x y : num_rem Release x y = Panic ->
  y = PosInt 0 \/ y = NegInt 0 \/ (x = NegInt (- 2 ^ 63) /\ y = NegInt (-1)).
Proof.
  unfold num_rem, coerce. destruct x as [a|a|a], y as [c|c|c]; try discriminate.
  - destruct (Z.eqb_spec c 0); [subst; auto|discriminate].
  - destruct (Z.eqb_spec c 0); [subst; auto|]. destruct (Z.eqb_spec a i64_min); cbn [andb]; [|discriminate].
    destruct (Z.eqb_spec c (-1)); [|discriminate]. subst. intros _. right. right. split; reflexivity.
Qed.
Lemma i64_release z : i64_arith Release z <> Panic.
Proof. unfold i64_arith. destruct (i64_ok z); discriminate. Qed.
Lemma u64_release z : u64_arith Release z <> Panic.
Proof. unfold u64_arith. destruct (u64_ok z); discriminate. Qed.
Lemma rmap_panic {A B} (f : A -> B) x : x <> Panic -> rmap f x <> Panic.
Proof. destruct x; [discriminate|congruence]. Qed.
Lemma release_ops o : op_panics Release o -> o = inr OpMod.
Proof.
  destruct o as [[]|[]]; cbn [op_panics]; try contradiction; auto.
  - intros [n H]. exfalso. revert H. destruct n; cbn [num_neg]; try discriminate; apply rmap_panic; apply i64_release.
  - intros [x [y H]]. exfalso. revert H. unfold num_add. destruct (coerce x y); try discriminate; apply rmap_panic;
      first [apply i64_release|apply u64_release].
  - intros [x [y H]]. exfalso. revert H. unfold num_sub. destruct (coerce x y) as [a b|a b|a b]; try discriminate;
      [destruct (a <? b)%Z|]; apply rmap_panic; first [apply i64_release|apply u64_release].
  - intros [x [y H]]. exfalso. revert H. unfold num_mul. destruct (coerce x y); try discriminate; apply rmap_panic;
      first [apply i64_release|apply u64_release].
  - intros [x [y H]]. discriminate H.
Qed.
