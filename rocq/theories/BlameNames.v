(** Errors name the right expression. *)
From Coq Require Import ZArith NArith Bool String List Lia.
From Verif Require Import Res Str NumberModel PrimModel Ast AstInd EvalModel EvalSpec EvalProofs BlameModel BlameSpec BlameProofs.
From Verif Require MapModel.
Import ListNotations.
Open Scope nat_scope.

(** ** Where a failure comes from *)
Lemma bbind_fail {A B} (x : bres A) (f : A -> bres B) k b : bbind x f = BFail k b ->
  x = BFail k b \/ exists a, x = BOk a /\ f a = BFail k b.
Proof. destruct x; cbn; eauto. intros [= <- <-]. auto. Qed.
Lemma bmap_fail {A B} (f : A -> B) (x : bres A) k b : bmap f x = BFail k b -> x = BFail k b.
Proof. destruct x; cbn; [discriminate|]. congruence. Qed.
Lemma at_fail {A} c (x : eres A) k b : at_ctx c x = BFail k b -> x = Fail k /\ b = named c.
Proof. destruct x; cbn; [discriminate|]. intros [= <- <-]. auto. Qed.
Lemma at_ok {A} c (x : eres A) a : at_ctx c x = BOk a -> x = Ok a.
Proof. destruct x; cbn; congruence. Qed.
Lemma bcollect_fail {A B} (f : A -> bres B) l k b : bcollect f l = BFail k b -> exists a, In a l /\ f a = BFail k b.
Proof.
  induction l as [|a l IH]; cbn [bcollect]; [discriminate|]. intros H. apply bbind_fail in H.
  destruct H as [H|[x [_ H]]]; [exists a; split; [left; reflexivity|exact H]|].
  apply bmap_fail in H. destruct (IH H) as [y [I E]]. exists y. split; [right; exact I|exact E].
Qed.
Lemma bsplat_fail f v k b : bsplat f v = BFail k b -> exists x, f x = BFail k b.
Proof.
  destruct v; cbn [bsplat]; try discriminate; intros H; apply bmap_fail in H; eauto.
  apply bcollect_fail in H. destruct H as [x [_ H]]. eauto.
Qed.
(** The failures of a single traversal step. *)
Definition step_fail (k : fail) : Prop :=
  (exists v i, array_value v i = Fail k) \/ (exists v s, object_value v s = Fail k) \/
  (exists v i, index_value v i = Fail k).
Lemma battr_path_fail c ops k b : forall v, battr_path c ops v = BFail k b -> b = named c /\ step_fail k.
Proof.
  induction ops as [|o ops IH]; intros v; [discriminate|]. destruct o; try discriminate. cbn [battr_path].
  intros H. apply bbind_fail in H. destruct H as [H|[x [_ H]]]; [|eauto].
  apply at_fail in H. destruct H as [H ->]. split; [reflexivity|]. right. left. eauto.
Qed.
Lemma btraverse_fail c ops k b : forall (skip : bool) v, btraverse c skip ops v = BFail k b ->
  (exists r, In (Index r) ops /\ r = BFail k b) \/ (b = named c /\ step_fail k).
Proof.
  induction ops as [|o ops IH]; intros skip v; [discriminate|]. cbn [btraverse].
  assert (T : forall skip v, btraverse c skip ops v = BFail k b ->
    (exists r, In (Index r) (o :: ops) /\ r = BFail k b) \/ (b = named c /\ step_fail k)).
  { intros sk v' H. apply IH in H. destruct H as [[r [I E]]|H]; [left|auto]. exists r. split; [right; exact I|exact E]. }
  destruct o as [| |s|r|i]; intros H.
  - apply bbind_fail in H. destruct H as [H|[x [_ H]]]; [|eauto]. apply bsplat_fail in H. destruct H as [x H].
    right. eapply battr_path_fail. exact H.
  - apply bsplat_fail in H. destruct H as [x H]. eauto.
  - destruct skip; [eauto|]. apply bbind_fail in H. destruct H as [H|[x [_ H]]]; [|eauto].
    apply at_fail in H. destruct H as [H ->]. right. split; [reflexivity|]. right. left. eauto.
  - apply bbind_fail in H. destruct H as [H|[x [_ H]]]; [|eauto].
    apply bbind_fail in H. destruct H as [H|[x [_ H]]].
    + left. exists r. split; [left; reflexivity|exact H].
    + apply at_fail in H. destruct H as [H ->]. right. split; [reflexivity|]. right. right. eauto.
  - apply bbind_fail in H. destruct H as [H|[x [_ H]]]; [|eauto].
    apply at_fail in H. destruct H as [H ->]. right. split; [reflexivity|]. left. eauto.
Qed.
Lemma bcall_args_fail c (ex : bool) l k b : bcall_args c ex l = BFail k b ->
  In (BFail k b) l \/ (ex = true /\ exists pre v, l = pre ++ [BOk v] /\ as_array v = Fail k /\ b = named c).
Proof.
  induction l as [|a l IH]; [discriminate|]. destruct l as [|a2 l].
  - cbn [bcall_args]. destruct ex; intros H.
    + apply bbind_fail in H. destruct H as [H|[x [Hx H]]]; [left; left; exact H|].
      apply at_fail in H. destruct H as [H ->]. right. split; [reflexivity|]. exists [], x. subst a. auto.
    + apply bmap_fail in H. left. left. exact H.
  - change (bcall_args c ex (a :: a2 :: l)) with (bbind a (fun v => bmap (cons v) (bcall_args c ex (a2 :: l)))).
    intros H. apply bbind_fail in H. destruct H as [H|[x [Hx H]]]; [left; left; exact H|].
    apply bmap_fail in H. apply IH in H. destruct H as [H|[E [pre [v [E2 H]]]]]; [left; right; exact H|].
    right. split; [exact E|]. exists (a :: pre), v. rewrite E2. auto.
Qed.
Lemma bfor_loop_fail {A} mk cond (body : A -> bctx -> bres A) items k b : forall acc,
  bfor_loop mk cond body items acc = BFail k b ->
  exists i v, In (i, v) items /\ (cond (mk i v) = BFail k b \/ exists a, body a (mk i v) = BFail k b).
Proof.
  induction items as [|[i v] items IH]; intros acc; [discriminate|]. cbn [bfor_loop]. intros H.
  assert (T : forall acc, bfor_loop mk cond body items acc = BFail k b ->
     exists i' v', In (i', v') ((i, v) :: items) /\ (cond (mk i' v') = BFail k b \/ exists a, body a (mk i' v') = BFail k b)).
  { intros a Ha. apply IH in Ha. destruct Ha as [i' [v' [I E]]]. exists i', v'. split; [right; exact I|exact E]. }
  apply bbind_fail in H. destruct H as [H|[x [_ H]]].
  { exists i, v. split; [left; reflexivity|auto]. }
  destruct x; [|eauto]. apply bbind_fail in H. destruct H as [H|[x [_ H]]]; [|eauto].
  exists i, v. split; [left; reflexivity|eauto].
Qed.
Lemma neighbours_err els p n i k : neighbours els p n i <> Err k.
Proof.
  unfold neighbours, Err. destruct (_ && _); [discriminate|].
  destruct (Nat.eqb i 0); [destruct (nth_error els (i + 1)); cbn; discriminate|].
  destruct (Nat.eqb i _); destruct (nth_error els (i - 1)); cbn; try discriminate.
  destruct (nth_error els (i + 1)); cbn; discriminate.
Qed.
Lemma btpl_loop_fail out all prev next els k b : forall i acc,
  btpl_loop out all prev next i els acc = BFail (FErr k) b ->
  exists el p n, In el els /\ out el p n = BFail (FErr k) b.
Proof.
  induction els as [|el els IH]; intros i acc; [discriminate|]. cbn [btpl_loop]. intros H.
  apply bbind_fail in H. destruct H as [H|[pn [_ H]]].
  { apply at_fail in H. destruct (neighbours_err _ _ _ _ _ (proj1 H)). }
  apply bbind_fail in H. destruct H as [H|[s [_ H]]].
  { exists el, (fst pn), (snd pn). split; [left; reflexivity|exact H]. }
  apply IH in H. destruct H as [el' [p [n [I E]]]]. exists el', p, n. split; [right; exact I|exact E].
Qed.

Lemma object_key_err show v k : object_key show v = Err k -> k = KUnexpected v (lit "a string, boolean or number").
Proof. destruct v; cbn; intros [= <-]; reflexivity. Qed.
Lemma as_bool_err v k : as_bool v = Err k -> k = KUnexpected v (lit "a boolean").
Proof. destruct v; cbn; intros [= <-]; reflexivity. Qed.
Lemma as_array_err v k : as_array v = Err k -> k = KUnexpected v (lit "an array").
Proof. destruct v; cbn; intros [= <-]; reflexivity. Qed.
Lemma collection_err v k : collection v = Err k -> k = KUnexpected v (lit "an array or object").
Proof. destruct v; cbn; intros [= <-]; reflexivity. Qed.
Lemma of_res_err {A} (x : res A) k : of_res x <> Err k.
Proof. destruct x; discriminate. Qed.
Lemma emap_of_res_err {A B} (f : A -> B) (x : res A) k : emap f (of_res x) <> Err k.
Proof. destruct x; discriminate. Qed.
Lemma eval_unary_err bd o v k : eval_unary bd o v = Err k -> k = KUnaryOp o v.
Proof.
  destruct o, v; cbn [eval_unary]; try (intros [= <-]; reflexivity); try discriminate.
  intros H. destruct (emap_of_res_err _ _ _ H).
Qed.
Lemma eval_binary_err bd l o r k : eval_binary bd l o r = Err k -> k = KBinaryOp l o r.
Proof.
  destruct o; cbn [eval_binary]; try discriminate; destruct l; try (intros [= <-]; reflexivity);
    destruct r; try (intros [= <-]; reflexivity); try discriminate;
    intros H; destruct (emap_of_res_err _ _ _ H).
Qed.
Lemma entry_insert_err (g : bool) s v m k : entry_insert g s v m = Err k -> g = false /\ k = KKeyExists s.
Proof.
  unfold entry_insert, group_push, Err. destruct g.
  - destruct (MapModel.get seqb s m) as [[]|]; discriminate.
  - destruct (MapModel.get seqb s m); [|discriminate]. intros [= <-]. auto.
Qed.
Lemma array_value_err v i k : array_value v i = Err k -> k = KIndex i \/ k = KUnexpected v (lit "an array").
Proof.
  unfold array_value, Err. destruct v; try (intros [= <-]; auto).
  destruct (N.ltb i _); [destruct (nth_error l _); discriminate|]. intros [= <-]. auto.
Qed.
Lemma object_value_err v s k : object_value v s = Err k -> k = KNoSuchKey s \/ k = KUnexpected v (lit "an object").
Proof.
  unfold object_value, Err. destruct v; try (intros [= <-]; auto).
  destruct (MapModel.get seqb s m); [discriminate|]. intros [= <-]. auto.
Qed.

(** ** Names of contexts *)
Lemma named_child bc e : named (child_with_expr bc e) = Some (match ctx_expr bc with Some p => p | None => e end).
Proof. unfold named. cbn. destruct (ctx_expr bc); reflexivity. Qed.
Lemma expr_next bc kv vv k v : ctx_expr (bnext_ctx bc kv vv k v) = ctx_expr bc.
Proof. unfold bnext_ctx. destruct kv; reflexivity. Qed.
Lemma named_next bc kv vv k v : named (bnext_ctx bc kv vv k v) = ctx_expr bc.
Proof. unfold bnext_ctx, named. destruct kv; cbn; destruct (ctx_expr bc); reflexivity. Qed.
Lemma expr_public c : ctx_expr (public c) = None.
Proof. induction c; cbn; auto. Qed.

Section Claim.
  Context (parse_tpl : str -> option template).

  (** [names] where the expression that failed is deep inside. *)
  Definition deep ev c e k b : Prop :=
    exists cb, within parse_tpl ev c e cb b /\ ev cb b = Err k /\
    exists cf f, raises parse_tpl ev cf k f /\ ev cf f = Err k /\
      (part parse_tpl ev cb b cf f \/ (f = b /\ cf = cb /\ in_loop k b)).
  (** An error of [e], evaluated in [bc]. *)
  Definition claim ev bc c e k ob : Prop :=
    (k = KMessage /\ ob = None /\
       exists cf f, within parse_tpl ev c e cf f /\ raises parse_tpl ev cf k f /\ ev cf f = Err k) \/
    (raises parse_tpl ev c k e /\ ob = Some (match ctx_expr bc with Some p => p | None => e end)) \/
    (exists b, ob = Some b /\ deep ev c e k b).

  (** From a part to the whole. *)
  Lemma claim_part ev bc c e bc1 c1 e1 k ob :
    part parse_tpl ev c e c1 e1 -> ctx_expr bc1 = Some e -> ev c e = Err k -> ev c1 e1 = Err k ->
    claim ev bc1 c1 e1 k ob -> claim ev bc c e k ob.
  Proof.
    intros P X E E1 [[K [-> [cf [f [W R]]]]]|[[R ->]|[b [-> [cb [W R]]]]]].
    - left. repeat split; auto. exists cf, f. split; [econstructor; eassumption|exact R].
    - right. right. rewrite X. exists e. split; [reflexivity|]. exists c. split; [constructor|]. split; [exact E|].
      exists c1, e1. auto.
    - right. right. exists b. split; [reflexivity|]. exists cb. split; [econstructor; eassumption|exact R].
  Qed.
  Lemma claim_own ev bc c e k : raises parse_tpl ev c k e -> claim ev bc c e k (named (child_with_expr bc e)).
  Proof. intros R. right. left. split; [exact R|]. apply named_child. Qed.
  Lemma claim_loop ev bc c e k : raises parse_tpl ev c k e -> in_loop k e -> ev c e = Err k ->
    claim ev bc c e k (Some e).
  Proof.
    intros R L E. right. right. exists e. split; [reflexivity|]. exists c. split; [constructor|]. split; [exact E|].
    exists c, e. repeat split; auto.
  Qed.

  (** A larger bound. *)
  Section Mono.
    Context (ev ev' : ctx -> expr -> eres value).
    Hypothesis HO : forall c e v, ev c e = Ok v -> ev' c e = Ok v.
    Hypothesis HE : forall c e k, ev c e = Err k -> ev' c e = Err k.
    Lemma item_mono c coll k v : item ev c coll k v -> item ev' c coll k v.
    Proof. intros [w [items [A B]]]. exists w, items. auto. Qed.
    Lemma tpl_part_mono c t c' e : tpl_part ev c t c' e -> tpl_part ev' c t c' e.
    Proof. induction 1; try (econstructor; (eassumption || (apply item_mono; eassumption))). Qed.
    Lemma part_mono c e c' e' : part parse_tpl ev c e c' e' -> part parse_tpl ev' c e c' e'.
    Proof.
      destruct 1; try (econstructor; (eassumption || (apply item_mono; eassumption) || (apply tpl_part_mono; eassumption))).
    Qed.
    Lemma within_mono c e c' e' : within parse_tpl ev c e c' e' -> within parse_tpl ev' c e c' e'.
    Proof. induction 1; [constructor|]. econstructor; [apply part_mono; eassumption|assumption]. Qed.
    Lemma raises_mono c k e : raises parse_tpl ev c k e -> raises parse_tpl ev' c k e.
    Proof.
      destruct 1; try (econstructor;
        (eassumption || (apply item_mono; eassumption) || (apply tpl_part_mono; eassumption) ||
         (apply HO; eassumption))).
    Qed.
    Lemma deep_mono c e k b : deep ev c e k b -> deep ev' c e k b.
    Proof.
      intros [cb [W [E [cf [f [R [F P]]]]]]]. exists cb. split; [apply within_mono; exact W|].
      split; [auto|]. exists cf, f. split; [apply raises_mono; exact R|]. split; [auto|].
      destruct P as [P|P]; [left; apply part_mono; exact P|auto].
    Qed.
    Lemma claim_mono bc c e k ob : claim ev bc c e k ob -> claim ev' bc c e k ob.
    Proof.
      intros [[K [O [cf [f [W [R E]]]]]]|[[R O]|[b [O D]]]].
      - left. repeat split; auto. exists cf, f. split; [apply within_mono; exact W|].
        split; [apply raises_mono; exact R|auto].
      - right. left. split; [apply raises_mono; exact R|exact O].
      - right. right. exists b. split; [exact O|apply deep_mono; exact D].
    Qed.
  End Mono.
End Claim.

Section Names.
  Context (bd : build) (parse_tpl : str -> option template)
          (show_value : value -> str) (show_num : num -> str).
  Notation beval_expr := (beval_expr bd show_num).
  Notation eval_expr := (eval_expr bd show_num).

  Section Expr.
    Context (btpl : bctx -> str -> bres value) (tpl : ctx -> str -> eres value).
    Hypothesis Hk : forall bc c s, sim bc c -> kind (btpl bc s) = tpl c s.
    Notation ev := (eval_expr tpl).
    Hypothesis Hc : forall bc c t k ob, sim bc c ->
      btpl (child_with_expr bc (ETpl t)) (tpl_text t) = BFail (FErr k) ob -> claim parse_tpl ev bc c (ETpl t) k ob.

    Lemma bev_ok bc c e v : sim bc c -> beval_expr btpl bc e = BOk v -> ev c e = Ok v.
    Proof. intros S H. rewrite <- (beval_expr_kind bd show_num btpl tpl Hk e bc c S), H. reflexivity. Qed.
    Lemma bev_err bc c e k ob : sim bc c -> beval_expr btpl bc e = BFail k ob -> ev c e = Fail k.
    Proof. intros S H. rewrite <- (beval_expr_kind bd show_num btpl tpl Hk e bc c S), H. reflexivity. Qed.

    Lemma beval_expr_claim e : forall bc c k ob, sim bc c ->
      beval_expr btpl bc e = BFail (FErr k) ob -> claim parse_tpl ev bc c e k ob.
    Proof.
      induction e as [ |b|n|s|l IH|m IH|t|x|e ops IHe IH|f args b IH|e IH|a b d IHa IHb IHd|o e IH
                     |l o r IHl IHr|kv vv coll key val g cond IHcoll IHkey IHval IHcond] using expr_ind';
        intros bc0 c k ob S0 HF; pose proof (bev_err _ _ _ _ _ S0 HF) as EE;
        cbn [BlameModel.beval_expr] in HF; try discriminate;
        match type of EE with EvalModel.eval_expr _ _ _ _ ?e = _ => pose proof (sim_child bc0 c e S0) as S;
          pose proof (claim_own parse_tpl ev bc0 c e k) as OWN;
          assert (PART : forall e1, part parse_tpl ev c e c e1 ->
            claim parse_tpl ev (child_with_expr bc0 e) c e1 k ob ->
            ev c e1 = Err k -> claim parse_tpl ev bc0 c e k ob) by
            (intros e1 HP HC HE; eapply claim_part; [exact HP| |exact EE|exact HE|exact HC]; reflexivity);
          set (bc := child_with_expr bc0 e) in * end.
      - apply bmap_fail in HF. apply bcollect_fail in HF. destruct HF as [e [I HF]].
        rewrite Forall_forall in IH. apply (PART e); [constructor; exact I| |].
        + apply IH; auto.
        + eapply bev_err; eassumption.
      - apply bmap_fail in HF. apply bcollect_fail in HF. destruct HF as [[kk v] [I HF]].
        rewrite Forall_forall in IH. destruct (IH _ I) as [IHk IHv]. cbn [fst snd] in *.
        apply bbind_fail in HF. destruct HF as [HF|[s [_ HF]]].
        + destruct kk as [s|e]; [discriminate|]. apply bbind_fail in HF. destruct HF as [HF|[w [Hw HF]]].
          * apply (PART e); [econstructor; exact I| |]; [apply IHk; auto|eapply bev_err; eassumption].
          * apply at_fail in HF. destruct HF as [HF ->]. apply OWN. apply object_key_err in HF. subst k.
            econstructor; [exact I|]. eapply bev_ok; eassumption.
        + apply bmap_fail in HF. apply (PART v); [econstructor; exact I| |]; [apply IHv; auto|eapply bev_err; eassumption].
      - apply Hc; auto.
      - apply at_fail in HF. destruct HF as [HF ->]. apply OWN. unfold lookup_var in HF.
        destruct (ctx_var (map fst bc) x) eqn:V; [discriminate|]. injection HF as <-. constructor.
        rewrite <- (proj1 S). exact V.
      - apply bbind_fail in HF. destruct HF as [HF|[v [Hv HF]]].
        + apply (PART e); [constructor| |]; [apply IHe; auto|eapply bev_err; eassumption].
        + apply btraverse_fail in HF. destruct HF as [[r [I E]]|[-> HF]].
          * apply in_map_iff in I. destruct I as [o [E2 I]]. destruct o as [| | |i|]; try discriminate.
            injection E2 as E2. rewrite Forall_forall in IH. specialize (IH _ I). cbn in IH.
            rewrite E in E2. apply (PART i); [constructor; exact I| |]; [apply IH; auto|eapply bev_err; eassumption].
          * apply OWN. pose proof (bev_ok _ _ _ _ S Hv) as V.
            destruct HF as [[w [i HF]]|[[w [s HF]]|[w [i HF]]]].
            -- apply array_value_err in HF. destruct HF as [-> | ->]; [econstructor; exact V|].
               econstructor; [exact V|cbn; auto].
            -- apply object_value_err in HF. destruct HF as [-> | ->]; [econstructor; exact V|].
               econstructor; [exact V|cbn; auto].
            -- unfold index_value in HF. destruct i as [ |?|nn|s|?|?];
                 try (injection HF as <-; econstructor; [exact V|cbn; auto 6]; fail).
               ++ destruct (as_u64 nn); [|injection HF as <-; econstructor; [exact V|cbn; auto 6]].
                  apply array_value_err in HF. destruct HF as [-> | ->]; [econstructor; exact V|].
                  econstructor; [exact V|cbn; auto].
               ++ apply object_value_err in HF. destruct HF as [-> | ->]; [econstructor; exact V|].
                  econstructor; [exact V|cbn; auto].
      - apply bbind_fail in HF. destruct HF as [HF|[fd [Hfd HF]]].
        + apply at_fail in HF. destruct HF as [HF ->]. apply OWN. unfold lookup_func in HF.
          destruct (ctx_func (map fst bc) f) eqn:V; [discriminate|]. injection HF as <-. constructor.
          rewrite <- (proj2 S). exact V.
        + apply at_ok in Hfd. unfold lookup_func in Hfd. rewrite (proj2 S) in Hfd.
          destruct (ctx_func c f) eqn:V; [|discriminate]. injection Hfd as ->.
          apply bbind_fail in HF. destruct HF as [HF|[vs [_ HF]]].
          * apply bcall_args_fail in HF. destruct HF as [HF|[-> [pre [v [E [HF ->]]]]]].
            -- apply in_map_iff in HF. destruct HF as [e [HF I]]. rewrite Forall_forall in IH.
               apply (PART e); [constructor; exact I| |]; [apply IH; auto|eapply bev_err; eassumption].
            -- apply OWN. apply as_array_err in HF. subst k.
               destruct (map_eq_app _ _ _ _ E) as [a1 [a2 [-> [_ E2]]]].
               destruct a2 as [|e [|e' a2]]; try discriminate. injection E2 as E2.
               constructor. eapply bev_ok; eassumption.
          * apply at_fail in HF. destruct HF as [HF ->]. apply OWN. destruct (call_func fd vs) eqn:CF; [discriminate|].
            injection HF as <-. econstructor; eassumption.
      - apply (PART e); [constructor| |]; [apply IH; auto|eapply bev_err; eassumption].
      - apply bbind_fail in HF. destruct HF as [HF|[v [Hv HF]]].
        + apply (PART a); [constructor| |]; [apply IHa; auto|eapply bev_err; eassumption].
        + apply bbind_fail in HF. destruct HF as [HF|[v' [_ HF]]].
          * apply at_fail in HF. destruct HF as [HF ->]. apply OWN. apply as_bool_err in HF. subst k.
            constructor. eapply bev_ok; eassumption.
          * destruct v'; [apply (PART b)|apply (PART d)]; try (constructor; fail);
              try (apply IHb; auto; fail); try (apply IHd; auto; fail); eapply bev_err; eassumption.
      - apply bbind_fail in HF. destruct HF as [HF|[v [Hv HF]]].
        + apply (PART e); [constructor| |]; [apply IH; auto|eapply bev_err; eassumption].
        + apply at_fail in HF. destruct HF as [HF ->]. apply OWN. apply eval_unary_err in HF. subst k.
          constructor. eapply bev_ok; eassumption.
      - apply bbind_fail in HF. destruct HF as [HF|[v [Hv HF]]].
        + apply (PART l); [constructor| |]; [apply IHl; auto|eapply bev_err; eassumption].
        + apply bbind_fail in HF. destruct HF as [HF|[w [Hw HF]]].
          * apply (PART r); [constructor| |]; [apply IHr; auto|eapply bev_err; eassumption].
          * apply at_fail in HF. destruct HF as [HF ->]. apply OWN. apply eval_binary_err in HF. subst k.
            constructor; eapply bev_ok; eassumption.
      - assert (LOOP : forall e1 i v, part parse_tpl ev c (EFor kv vv coll key val g cond) (next_ctx c kv vv i v) e1 ->
            claim parse_tpl ev (bnext_ctx bc kv vv i v) (next_ctx c kv vv i v) e1 k ob ->
            ev (next_ctx c kv vv i v) e1 = Err k -> claim parse_tpl ev bc0 c (EFor kv vv coll key val g cond) k ob).
        { intros e1 i v HP HC HE. eapply claim_part; [exact HP| |exact EE|exact HE|exact HC].
          rewrite expr_next. reflexivity. }
        assert (MINE : forall i v, raises parse_tpl ev c k (EFor kv vv coll key val g cond) ->
            in_loop k (EFor kv vv coll key val g cond) -> ob = named (bnext_ctx bc kv vv i v) ->
            claim parse_tpl ev bc0 c (EFor kv vv coll key val g cond) k ob).
        { intros i v HR HL ->. rewrite named_next. apply claim_loop; auto. }
        apply bbind_fail in HF. destruct HF as [HF|[items [HI HF]]].
        + apply bbind_fail in HF. destruct HF as [HF|[v [Hv HF]]].
          * apply (PART coll); [constructor| |]; [apply IHcoll; auto|eapply bev_err; eassumption].
          * apply at_fail in HF. destruct HF as [HF ->]. apply OWN. apply collection_err in HF. subst k.
            constructor. eapply bev_ok; eassumption.
        + assert (IT : forall i v, In (i, v) items -> item ev c coll i v).
          { intros i v I. destruct (beval_expr btpl bc coll) as [w|] eqn:W; [|discriminate]. cbn [bbind] in HI.
            apply at_ok in HI. exists w, items. split; [eapply bev_ok; eassumption|auto]. }
          assert (TEST : forall i v, In (i, v) items ->
            match cond with
            | None => BOk true
            | Some e => bbind (beval_expr btpl (bnext_ctx bc kv vv i v) e)
                          (fun w => at_ctx (bnext_ctx bc kv vv i v) (as_bool w))
            end = BFail (FErr k) ob -> claim parse_tpl ev bc0 c (EFor kv vv coll key val g cond) k ob).
          { intros i v I HT. destruct cond as [cond|]; [|discriminate].
            pose proof (sim_next bc c kv vv i v S) as SN.
            apply bbind_fail in HT. destruct HT as [HT|[w [Hw HT]]].
            - eapply (LOOP cond i v); [constructor; auto| |eapply bev_err; eassumption]. apply IHcond; auto.
            - apply at_fail in HT. destruct HT as [HT Hob]. apply as_bool_err in HT. subst k.
              eapply (MINE i v); [|cbn; discriminate|exact Hob]. econstructor; [apply IT; exact I|].
              eapply bev_ok; eassumption. }
          destruct key as [key|]; apply bmap_fail in HF; apply bfor_loop_fail in HF;
            destruct HF as [i [v [I [HF|[acc HF]]]]]; try (apply (TEST i v I HF));
            pose proof (sim_next bc c kv vv i v S) as SN.
          * apply bbind_fail in HF. destruct HF as [HF|[s [_ HF]]].
            -- apply bbind_fail in HF. destruct HF as [HF|[w [Hw HF]]].
               ++ eapply (LOOP key i v); [constructor; auto| |eapply bev_err; eassumption]. apply IHkey; auto.
               ++ apply at_fail in HF. destruct HF as [HF Hob]. apply object_key_err in HF. subst k.
                  eapply (MINE i v); [|cbn; discriminate|exact Hob]. econstructor; [apply IT; exact I|].
                  eapply bev_ok; eassumption.
            -- apply bbind_fail in HF. destruct HF as [HF|[w [Hw HF]]].
               ++ eapply (LOOP val i v); [constructor; auto| |eapply bev_err; eassumption]. apply IHval; auto.
               ++ apply at_fail in HF. destruct HF as [HF Hob]. apply entry_insert_err in HF. destruct HF as [-> ->].
                  eapply (MINE i v); [constructor|exact Logic.I|exact Hob].
          * apply bmap_fail in HF.
            eapply (LOOP val i v); [constructor; auto| |eapply bev_err; eassumption]. apply IHval; auto.
    Qed.
  End Expr.

  (** Elements of templates: the error is that of an expression inside, or a directive raised it. *)
  Section Tpl.
    Context (bev : bctx -> expr -> bres value) (ev : ctx -> expr -> eres value).
    Hypothesis H : forall bc c e, sim bc c -> kind (bev bc e) = ev c e.
    Definition from_part bc c t k ob : Prop := exists bc1 c1 e1, tpl_part ev c t c1 e1 /\ sim bc1 c1 /\
      ctx_expr bc1 = ctx_expr bc /\ bev bc1 e1 = BFail (FErr k) ob.
    Definition from_directive bc c t k ob : Prop := exists c1 e1 v what, tpl_part ev c t c1 e1 /\ ev c1 e1 = Ok v /\
      k = KUnexpected v what /\ In what [lit "a boolean"; lit "an array or object"] /\
      (ob = named bc \/ ob = ctx_expr bc).

    Lemma tbev_ok bc c e v : sim bc c -> bev bc e = BOk v -> ev c e = Ok v.
    Proof. intros S E. rewrite <- (H bc c e S), E. reflexivity. Qed.

    Definition elem_claim el := forall bc c p n k ob t, sim bc c -> In el t ->
      beval_elem show_value bev bc el p n = BFail (FErr k) ob -> from_part bc c t k ob \/ from_directive bc c t k ob.
    Lemma loop_claim els : Forall elem_claim els -> forall bc c k ob all p n i acc, sim bc c ->
      btpl_loop (beval_elem show_value bev bc) all p n i els acc = BFail (FErr k) ob ->
      from_part bc c els k ob \/ from_directive bc c els k ob.
    Proof.
      intros F bc c k ob all p n i acc S HF. apply btpl_loop_fail in HF. destruct HF as [el [p' [n' [I HF]]]].
      rewrite Forall_forall in F. eapply (F el I); eassumption.
    Qed.
    Lemma beval_elem_claim el : elem_claim el.
    Proof.
      induction el as [s|e s|e t f s1 s2 s3 IHt IHf|kv vv e t s1 s2 IHt] using elem_ind';
        intros bc c p n k ob all S I HF; cbn [beval_elem] in HF.
      - discriminate.
      - apply bmap_fail in HF. left. exists bc, c, e. split; [econstructor; exact I|]. auto.
      - apply bbind_fail in HF. destruct HF as [HF|[b [_ HF]]].
        + apply bbind_fail in HF. destruct HF as [HF|[v [Hv HF]]].
          * left. exists bc, c, e. split; [eapply tp_test; exact I|]. auto.
          * apply at_fail in HF. destruct HF as [HF ->]. apply as_bool_err in HF. right.
            exists c, e, v, (lit "a boolean"). split; [eapply tp_test; exact I|].
            split; [eapply tbev_ok; eassumption|]. cbn; auto 6.
        + destruct b; [|destruct f as [f|]; [|discriminate]]; eapply loop_claim in HF; try eassumption.
          * destruct HF as [[bc1 [c1 [e1 [P R]]]]|[c1 [e1 [v [what [P R]]]]]]; [left|right].
            -- exists bc1, c1, e1. split; [eapply tp_then; eassumption|exact R].
            -- exists c1, e1, v, what. split; [eapply tp_then; eassumption|exact R].
          * destruct HF as [[bc1 [c1 [e1 [P R]]]]|[c1 [e1 [v [what [P R]]]]]]; [left|right].
            -- exists bc1, c1, e1. split; [eapply tp_else; eassumption|exact R].
            -- exists c1, e1, v, what. split; [eapply tp_else; eassumption|exact R].
      - apply bbind_fail in HF. destruct HF as [HF|[items [HI HF]]].
        + apply bbind_fail in HF. destruct HF as [HF|[v [Hv HF]]].
          * left. exists bc, c, e. split; [eapply tp_coll; exact I|]. auto.
          * apply at_fail in HF. destruct HF as [HF ->]. apply collection_err in HF. right.
            exists c, e, v, (lit "an array or object"). split; [eapply tp_coll; exact I|].
            split; [eapply tbev_ok; eassumption|]. cbn; auto 6.
        + apply bfor_loop_fail in HF. destruct HF as [i [v [J [HF|[acc HF]]]]]; [discriminate|].
          apply bmap_fail in HF. eapply loop_claim in HF; [|exact IHt|apply sim_next; exact S].
          assert (IT : item ev c e i v).
          { destruct (bev bc e) as [w|] eqn:W; [|discriminate]. cbn [bbind] in HI. apply at_ok in HI.
            exists w, items. split; [eapply tbev_ok; eassumption|auto]. }
          destruct HF as [[bc1 [c1 [e1 [P [Q1 [Q2 R]]]]]]|[c1 [e1 [w [what [P [Q1 [Q2 [Q3 R]]]]]]]]]; [left|right].
          * exists bc1, c1, e1. split; [eapply tp_loop; eassumption|]. rewrite expr_next in Q2. auto.
          * exists c1, e1, w, what. split; [eapply tp_loop; eassumption|].
            rewrite named_next, expr_next in R. tauto.
    Qed.
    Lemma beval_template_claim t bc c k ob : sim bc c ->
      beval_template show_value bev bc t = BFail (FErr k) ob -> from_part bc c t k ob \/ from_directive bc c t k ob.
    Proof.
      intros S HF. eapply loop_claim; [|exact S|exact HF]. apply Forall_forall. intros. apply beval_elem_claim.
    Qed.
  End Tpl.

  Notation eval := (eval bd parse_tpl show_value show_num).
  Notation beval := (beval bd parse_tpl show_value show_num).

  Lemma beval_err n bc c e k ob : sim bc c -> beval n bc e = BFail k ob -> eval n c e = Fail k.
  Proof. intros S E. rewrite <- (beval_kind bd parse_tpl show_value show_num n bc c e S), E. reflexivity. Qed.

  Lemma eval_S n c e r : eval n c e = r -> r <> Fail FFuel -> eval (S n) c e = r.
  Proof. intros E F. rewrite <- E. apply eval_fuel; [lia|congruence]. Qed.

  Lemma beval_claim n : forall bc c e k ob, sim bc c ->
    beval n bc e = BFail (FErr k) ob -> claim parse_tpl (eval n) bc c e k ob.
  Proof.
    induction n as [|n IH]; intros bc c e k ob S HF.
    - cbn [BlameModel.beval EvalModel.eval] in *. eapply beval_expr_claim; [| |exact S|exact HF].
      + reflexivity.
      + intros. discriminate.
    - cbn [BlameModel.beval] in HF.
      change (eval (Datatypes.S n)) with (eval_expr (eval_tpl_text parse_tpl show_value (eval n))).
      eapply beval_expr_claim; [| |exact S|exact HF].
      { intros bc' c' s S'. apply beval_tpl_text_kind; [|exact S']. intros. apply beval_kind. assumption. }
      clear bc c e k ob S HF. intros bc c t k ob S0 HF.
      pose proof (sim_child bc c (ETpl t) S0) as S.
      assert (EE : eval (Datatypes.S n) c (ETpl t) = Err k).
      { apply (beval_err (Datatypes.S n) bc c (ETpl t) (FErr k) ob S0). exact HF. }
      change (eval_expr (eval_tpl_text parse_tpl show_value (eval n))) with (eval (Datatypes.S n)).
      assert (UP : forall bc1 c1 e1 els, parse_tpl (tpl_text t) = Some els -> tpl_part (eval n) c els c1 e1 ->
        sim bc1 c1 -> ctx_expr bc1 = Some (ETpl t) -> beval n bc1 e1 = BFail (FErr k) ob ->
        claim parse_tpl (eval (Datatypes.S n)) bc c (ETpl t) k ob).
      { intros bc1 c1 e1 els E P S1 X HB. eapply claim_part; [|exact X|exact EE| |].
        - eapply p_tpl; [exact E|]. eapply tpl_part_mono; [|exact P]. intros c2 e2 v Hv. apply eval_S; [exact Hv|discriminate].
        - apply eval_S; [|discriminate]. apply (beval_err n bc1 c1 e1 (FErr k) ob S1 HB).
        - eapply claim_mono; [| |apply IH; [exact S1|exact HB]];
            intros c2 e2 r Hr; (apply eval_S; [exact Hr|discriminate]). }
      unfold beval_tpl_text in HF. destruct (parse_tpl (tpl_text t)) as [els|] eqn:E.
      2: { injection HF as <- <-. left. repeat split. exists c, (ETpl t). split; [constructor|].
           split; [constructor; exact E|exact EE]. }
      assert (G : bmap VStr (beval_template show_value (beval n) (child_with_expr bc (ETpl t)) els) = BFail (FErr k) ob ->
                  claim parse_tpl (eval (Datatypes.S n)) bc c (ETpl t) k ob).
      { clear HF. intros HF. apply bmap_fail in HF.
        eapply (beval_template_claim (beval n) (eval n)) in HF; [| |exact S].
        2: { intros. apply beval_kind. assumption. }
        destruct HF as [[bc1 [c1 [e1 [P [S1 [X HB]]]]]]|[c1 [e1 [v [what [P [V [-> [W O]]]]]]]]].
        - eapply UP; try eassumption; reflexivity.
        - assert (R : raises parse_tpl (eval (Datatypes.S n)) c (KUnexpected v what) (ETpl t)).
          { econstructor; [exact E| | |exact W].
            - eapply tpl_part_mono; [|exact P]. intros c2 e2 u Hu. apply eval_S; [exact Hu|discriminate].
            - apply eval_S; [exact V|discriminate]. }
          destruct O as [-> | ->].
          + apply claim_own. exact R.
          + apply claim_loop; auto. exact Logic.I. }
      destruct els as [|[s'|e s'|a1 a2 a3 a4 a5 a6|a1 a2 a3 a4 a5 a6] [|el2 t2]]; try (apply G; exact HF).
      eapply UP; [reflexivity|eapply tp_interp; left; reflexivity|exact S|reflexivity|exact HF].
  Qed.
End Names.
