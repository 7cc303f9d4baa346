(** Expression evaluation (C24-C33).

    [eval bd parse_tpl show_value show_num n c e] is [Expression::evaluate]: [bd] the build profile,
    [parse_tpl] the template parser, [show_value]/[show_num] the [Display] of values and numbers,
    and [n] a bound on the nesting of templates within templates (C41). *)
From Coq Require Import ZArith NArith Bool String List Lia.
From Verif Require Import Res Str NumberModel PrimModel Ast EvalModel EvalSpec EvalProofs EvalWf EvalIp EvalSem.
Import ListNotations.
Open Scope nat_scope.

(** Variables used in the examples. *)
Definition vars (l : list (str * value)) : ctx := [Scope l []].
Lemma vars_wf l : Forall (fun e => wf_value (snd e)) l -> wf_ctx (vars l).
Proof.
  intros H. split; [|discriminate]. intros x v. cbn [ctx_var vars sc_vars].
  destruct (MapModel.get seqb x l) eqn:E; [|discriminate]. intros Q. injection Q as <-.
  unfold MapModel.get in E. induction H as [|[k w] l H1 H2 IH]; cbn in E; [discriminate|].
  destruct (seqb x k); [cbn in E; injection E as <-; exact H1|apply IH; exact E].
Qed.
Definition num (z : Z) : value := VNum (PosInt z).

Section Props.
  Context (bd : build) (parse_tpl : str -> option template)
          (show_value : value -> str) (show_num : NumberModel.num -> str).
  Notation eval := (eval bd parse_tpl show_value show_num).
  Notation evaluate_in_place := (evaluate_in_place bd parse_tpl show_value show_num).
  Notation eval_body n := (eval_body (eval n)).
  Notation in_place_body n := (in_place_body (eval n)).

  (** ** C24 *)
  Theorem C24_literals_evaluate_to_themselves : forall n c v, wf_value v ->
    eval n c (expr_of_value v) = Ok v.
  Proof. intros n c v. apply eval_literal. Qed.
  Theorem C24_values_through_expressions : forall show interp v, wf_value v ->
    value_of_expr show interp (expr_of_value v) = v.
  Proof. exact value_of_expr_of_value. Qed.
  Example C24_example :
    let v := VObj [(lit "a", VArr [VStr (lit "${x}"); VNull]); (lit "b", VObj [])] in
    wf_value v /\ eval 0 [] (expr_of_value v) = Ok v.
  Proof.
    intros v. assert (W : wf_value v).
    { cbn. repeat split; auto. constructor; [cbn; intuition discriminate|]. constructor; [auto|constructor]. constructor. }
    split; [exact W|]. apply C24_literals_evaluate_to_themselves. exact W.
  Qed.

  (** ** C25 *)

  (** Simplifying the keys of an object must not make two of them equal ([no_merge]): see the
      refutation below. *)
  Theorem C25_in_place_is_evaluate_partial : forall n c e e', wf_ctx c ->
    no_merge (simp bd parse_tpl show_value show_num n c) e -> evaluate_in_place n c e = (e', []) ->
    exists v, eval n c e = Ok v /\ e' = expr_of_value v.
  Proof. intros n c e e' W. apply in_place_ok. exact W. Qed.
  (** This holds when the object keys are distinct identifiers and strings. *)
  Theorem C25_in_place_plain_keys : forall n c e e', wf_ctx c -> plain_keys e ->
    evaluate_in_place n c e = (e', []) -> exists v, eval n c e = Ok v /\ e' = expr_of_value v.
  Proof.
    intros n c e e' W P H. apply in_place_ok; auto. apply plain_no_merge; auto.
  Qed.
  Theorem C25_body_in_place_is_evaluate_partial : forall n c b b', wf_ctx c ->
    Forall (no_merge_struct (simp bd parse_tpl show_value show_num n c)) b ->
    in_place_body n c b = (b', []) -> eval_body n c b = Ok b'.
  Proof. intros n c b b'. apply in_place_body_ok. Qed.
  Example C25_example :
    let c := vars [(lit "x", VStr (lit "k")); (lit "y", VBool true)] in
    let e := EObj [(KIdent (lit "a"), ECond (EVar (lit "y")) (EArr [EVar (lit "x")]) ENull); (KExpr (EVar (lit "x")), ENull)] in
    wf_ctx c /\ no_merge (simp bd parse_tpl show_value show_num 0 c) e /\
    evaluate_in_place 0 c e =
      (EObj [(KExpr (EStr (lit "a")), EArr [EStr (lit "k")]); (KExpr (EStr (lit "k")), ENull)], []).
  Proof.
    split; [apply vars_wf; repeat constructor|]. split; [|vm_compute; reflexivity].
    cbn [no_merge map fst snd keys_differ fold_right simp_key]. repeat split; repeat constructor.
  Qed.
  (** [{ (x) = 1, a = 2, (y) = 3 }] with x = y = "a" evaluates to [{ a = 3 }], but in place to
      [{ a = 2 }]: simplification turns the first and last key into the same string. *)
  Theorem C25_equal_keys_refuted :
    exists c e e', wf_ctx c /\ evaluate_in_place 0 c e = (e', []) /\
      (exists v, eval 0 c e = Ok v /\ e' <> expr_of_value v).
  Proof.
    exists (vars [(lit "x", VStr (lit "a")); (lit "y", VStr (lit "a"))]).
    exists (EObj [(KExpr (EVar (lit "x")), ENum (PosInt 1)); (KIdent (lit "a"), ENum (PosInt 2));
                  (KExpr (EVar (lit "y")), ENum (PosInt 3))]).
    exists (EObj [(KExpr (EStr (lit "a")), ENum (PosInt 2))]).
    split; [apply vars_wf; repeat constructor|]. split; [vm_compute; reflexivity|].
    exists (VObj [(lit "a", VNum (PosInt 3))]). split; [vm_compute; reflexivity|]. vm_compute. discriminate.
  Qed.
  (** The converse fails: [[][*][foo]] evaluates to [[]], but evaluation in place evaluates the
      index, which is not defined. *)
  Theorem C25_in_place_may_fail_refuted :
    exists c e v f, eval 0 c e = Ok v /\ evaluate_in_place 0 c e = (e, [f]).
  Proof.
    exists new_ctx, (ETrav (EArr []) [FullSplat; Index (EVar (lit "foo"))]), (VArr []), (FErr (KUndefinedVar (lit "foo"))).
    split; vm_compute; reflexivity.
  Qed.

  (** ** C26 *)
  Theorem C26_partial_evaluation_sound_partial : forall n m c c' e v, n <= m -> wf_ctx c -> extends c c' ->
    no_merge (simp bd parse_tpl show_value show_num n c) e ->
    eval m c' e = Ok v -> eval m c' (fst (evaluate_in_place n c e)) = Ok v.
  Proof. intros n m c c' e v. apply in_place_sound. Qed.
  Theorem C26_partial_evaluation_plain_keys : forall n m c c' e v, n <= m -> wf_ctx c -> extends c c' ->
    plain_keys e -> eval m c' e = Ok v -> eval m c' (fst (evaluate_in_place n c e)) = Ok v.
  Proof. intros n m c c' e v L W X P. apply in_place_sound; auto. apply plain_no_merge; auto. Qed.
  Theorem C26_partial_body_sound_partial : forall n m c c' b b', n <= m -> wf_ctx c -> extends c c' ->
    Forall (no_merge_struct (simp bd parse_tpl show_value show_num n c)) b ->
    eval_body m c' b = Ok b' -> eval_body m c' (fst (in_place_body n c b)) = Ok b'.
  Proof. intros n m c c' b b'. apply in_place_body_sound. Qed.
  (** Templates: the loop variables must not be declared outside (see the refutation below). *)
  Theorem C26_partial_template_sound_partial : forall n m c c' t s, n <= m -> wf_ctx c -> extends c c' ->
    Forall (no_merge_elem (simp bd parse_tpl show_value show_num n c)) t ->
    Forall (loop_vars (fun x => ctx_var c x = None)) t ->
    eval_template show_value (eval m) c' t = Ok s ->
    eval_template show_value (eval m) c' (fst (in_place_template (eval n) c t)) = Ok s.
  Proof. intros n m c c' t s. apply in_place_template_sound. Qed.
  Example C26_example :
    let c := vars [(lit "x", VBool true)] in
    let c' := vars [(lit "x", VBool true); (lit "y", VNull)] in
    let e := EArr [EUnary Not (EVar (lit "x")); EVar (lit "y")] in
    extends c c' /\ evaluate_in_place 0 c e = (EArr [EBool false; EVar (lit "y")], [FErr (KUndefinedVar (lit "y"))]) /\
    eval 0 c' e = Ok (VArr [VBool false; VNull]).
  Proof.
    split; [|split; vm_compute; reflexivity]. split; [|discriminate].
    intros x v. cbn [ctx_var vars sc_vars]. unfold MapModel.get. cbn [MapModel.get_key_value].
    destruct (seqb x (lit "x")); [auto|discriminate].
  Qed.
  (** [%{for x in xs}${x}%{endfor}] with x = "o" and xs = ["a"]: simplification replaces the loop
      variable by the outer variable. *)
  Theorem C26_loop_variable_refuted :
    exists c t s s', eval_template show_value (eval 0) c t = Ok s /\
      in_place_template (eval 0) c t = (fst (in_place_template (eval 0) c t), []) /\
      eval_template show_value (eval 0) c (fst (in_place_template (eval 0) c t)) = Ok s' /\ s <> s'.
  Proof.
    exists (vars [(lit "x", VStr (lit "o")); (lit "xs", VArr [VStr (lit "a")])]).
    exists [ElFor None (lit "x") (EVar (lit "xs")) [ElInterp (EVar (lit "x")) StripNone] StripNone StripNone].
    exists (lit "a"), (lit "o"). repeat split; try (vm_compute; reflexivity). vm_compute. discriminate.
  Qed.

  (** ** C27 *)

  (** A context built by any history of declarations in nested scopes. *)
  Theorem C27_innermost_declaration : forall scopes,
    (forall x, ctx_var (ctx_of scopes) x = innermost_var x scopes) /\
    (forall f, ctx_func (ctx_of scopes) f = innermost_func f scopes).
  Proof. exact ctx_of_lookup. Qed.
  Theorem C27_variable : forall n scopes x,
    eval n (ctx_of scopes) (EVar x) =
    match innermost_var x scopes with Some v => Ok v | None => Err (KUndefinedVar x) end.
  Proof.
    intros n scopes x. rewrite <- (proj1 (ctx_of_lookup scopes)). destruct (eval_eq bd parse_tpl show_value show_num n) as [tpl U].
    rewrite U. reflexivity.
  Qed.
  Example C27_example :
    eval 0 (ctx_of [[DVar (lit "a") (num 3)]; [DVar (lit "a") (num 1); DVar (lit "b") VNull; DVar (lit "a") (num 2)]])
      (EArr [EVar (lit "a"); EVar (lit "b")]) = Ok (VArr [num 3; VNull]).
  Proof. vm_compute. reflexivity. Qed.
  (** Only the variables that occur free matter; a for expression binds its variables. *)
  Theorem C27_only_free_variables_matter : forall n c c' e,
    (forall x, free_in parse_tpl n x e = true -> ctx_var c x = ctx_var c' x) ->
    (forall f, ctx_func c f = ctx_func c' f) -> eval n c e = eval n c' e.
  Proof. intros n c c' e. apply eval_free. Qed.
  Example C27_free_example :
    let e := EFor None (lit "x") (EVar (lit "xs")) None (EArr [EVar (lit "x"); EVar (lit "y")]) false None in
    map (fun x => free_in parse_tpl 0 x e) [lit "x"; lit "y"; lit "xs"] = [false; true; true].
  Proof. reflexivity. Qed.
  (** Hence a declaration of the loop variable outside does not change a for expression. *)
  Theorem C27_loop_variable_shadows : forall n c vv coll key val g cond w,
    c <> [] -> free_in parse_tpl n vv coll = false ->
    let e := EFor None vv coll key val g cond in eval n (declare_var vv w c) e = eval n c e.
  Proof.
    intros n c vv coll key val g cond w Hc F e. apply eval_free.
    - intros x Fx. destruct c as [|sc c]; [congruence|]. rewrite var_declare. destruct (seqb x vv) eqn:E; auto.
      apply seqb_eq in E. subst x. exfalso.
      destruct n; cbn [free_in free_expr e] in *; unfold bound_by in Fx; rewrite F, seqb_refl in Fx; discriminate Fx.
    - intros f. destruct c; [congruence|]. reflexivity.
  Qed.

  (** ** C28 *)
  Theorem C28_for_array : forall n c kv vv coll val g cond r,
    eval n c (EFor kv vv coll None val g cond) = Ok r <->
    exists cv items sel vs, eval n c coll = Ok cv /\ iterates cv items /\
      selects (fun it => test_in bd parse_tpl show_value show_num n cond (next_ctx c kv vv (fst it) (snd it))) items sel /\
      Forall2 (fun it v => eval n (next_ctx c kv vv (fst it) (snd it)) val = Ok v) sel vs /\
      r = VArr vs.
  Proof. intros. apply for_array. Qed.
  Theorem C28_for_object : forall n c kv vv coll key val (g : bool) cond r,
    eval n c (EFor kv vv coll (Some key) val g cond) = Ok r <->
    exists cv items sel kvs, eval n c coll = Ok cv /\ iterates cv items /\
      selects (fun it => test_in bd parse_tpl show_value show_num n cond (next_ctx c kv vv (fst it) (snd it))) items sel /\
      Forall2 (fun it e =>
        (exists k, eval n (next_ctx c kv vv (fst it) (snd it)) key = Ok k /\ key_of show_num k (fst e)) /\
        eval n (next_ctx c kv vv (fst it) (snd it)) val = Ok (snd e)) sel kvs /\
      (if g then r = VObj (grouped kvs) else NoDup (map fst kvs) /\ r = VObj kvs).
  Proof. intros. apply for_object. Qed.
  (** The scope of the body: the loop variables, then the enclosing scope. *)
  Theorem C28_body_scope : forall c kv vv k v x,
    ctx_var (next_ctx c kv vv k v) x =
    if seqb x vv then Some v
    else match kv with Some y => if seqb x y then Some k else ctx_var c x | None => ctx_var c x end.
  Proof. intros. rewrite var_next. destruct kv; reflexivity. Qed.
  Example C28_example :
    let coll := EArr [EStr (lit "a"); EStr (lit "b"); EStr (lit "a")] in
    eval 0 [] (EFor (Some (lit "i")) (lit "x") coll (Some (EVar (lit "x"))) (EVar (lit "i")) true None) =
      Ok (VObj [(lit "a", VArr [num 0; num 2]); (lit "b", VArr [num 1])]) /\
    eval 0 [] (EFor (Some (lit "i")) (lit "x") coll (Some (EVar (lit "x"))) (EVar (lit "i")) false None) =
      Err (KKeyExists (lit "a")) /\
    eval 0 [] (EFor (Some (lit "i")) (lit "x") coll None (EVar (lit "i")) false
      (Some (EBinary (EVar (lit "x")) OpEq (EStr (lit "a"))))) = Ok (VArr [num 0; num 2]).
  Proof. repeat split; vm_compute; reflexivity. Qed.

  (** ** C29 *)

  (** [value.rest], for a value instead of an expression. *)
  Notation rest := (rest bd parse_tpl show_value show_num).
  Theorem C29_full_splat : forall n c e ops v, wf_ctx c -> eval n c e = Ok v ->
    eval n c (ETrav e (FullSplat :: ops)) =
    match v with
    | VArr l => emap VArr (collect (rest n c ops) l)
    | VNull => Ok (VArr [])
    | v => emap (fun x => VArr [x]) (rest n c ops v)
    end.
  Proof. intros. apply full_splat; auto. Qed.
  Theorem C29_attr_splat : forall n c e path ops v, wf_ctx c -> eval n c e = Ok v -> no_attr ops ->
    eval n c (ETrav e (AttrSplat :: map GetAttr path ++ ops)) =
    ebind (match v with
           | VArr l => emap VArr (collect (rest n c (map GetAttr path)) l)
           | VNull => Ok (VArr [])
           | v => emap (fun x => VArr [x]) (rest n c (map GetAttr path) v)
           end) (rest n c ops).
  Proof. intros. apply attr_splat; auto. Qed.
  Theorem C29_one_step : forall n c e o ops v, wf_ctx c -> eval n c e = Ok v ->
    match o with GetAttr _ | Index _ | LegacyIndex _ => True | _ => False end ->
    eval n c (ETrav e (o :: ops)) = ebind (eval n c (ETrav e [o])) (rest n c ops).
  Proof. intros. eapply trav_cons; eauto. Qed.
  Theorem C29_index_in_bounds_or_error : forall n c e l i, eval n c e = Ok (VArr l) ->
    eval n c (ETrav e [LegacyIndex i]) =
    match nth_error l (N.to_nat i) with Some x => Ok x | None => Err (KIndex i) end.
  Proof. intros. apply index_access. auto. Qed.
  Theorem C29_index_expr_in_bounds_or_error : forall n c e i l k,
    eval n c e = Ok (VArr l) -> eval n c i = Ok (VNum k) ->
    eval n c (ETrav e [Index i]) =
    match as_u64 k with
    | Some z => match nth_error l (N.to_nat (Z.to_N z)) with Some x => Ok x | None => Err (KIndex (Z.to_N z)) end
    | None => Err (KUnexpected (VNum k) (lit "an unsigned integer"))
    end.
  Proof. intros. apply index_expr; auto. Qed.
  Example C29_example :
    let obj k v := VObj [(lit "a", VObj [(k, v)])] in
    let c := vars [(lit "x", VArr [obj (lit "b") (VArr [num 1]); obj (lit "b") (VArr [num 2])]); (lit "z", VNull)] in
    eval 0 c (ETrav (EVar (lit "x")) [FullSplat; GetAttr (lit "a"); GetAttr (lit "b"); LegacyIndex 0]) = Ok (VArr [num 1; num 2]) /\
    eval 0 c (ETrav (EVar (lit "x")) [AttrSplat; GetAttr (lit "a"); GetAttr (lit "b"); LegacyIndex 0]) = Ok (VArr [num 1]) /\
    eval 0 c (ETrav (EVar (lit "z")) [FullSplat; GetAttr (lit "a")]) = Ok (VArr []) /\
    eval 0 c (ETrav (EVar (lit "x")) [LegacyIndex 2]) = Err (KIndex 2).
  Proof. repeat split; vm_compute; reflexivity. Qed.

  (** ** C30 *)
  (** Signatures without an empty list of alternatives. *)
  Theorem C30_fitting_call_runs_the_body_partial : forall fd args, well_declared fd -> fits fd args ->
    call_func fd args =
    match fd_func fd (FArgs args (length (fd_params fd))) with inl v => inl v | inr m => inr (CUser m) end.
  Proof. exact call_fits. Qed.
  (** The outcome is the same error for every function body: the body is not run. *)
  Theorem C30_misfit_is_an_error : forall fd args, well_declared fd -> ~ fits fd args ->
    exists err, (forall m, err <> CUser m) /\
      forall body, call_func (FuncDef body (fd_params fd) (fd_variadic fd)) args = inr err.
  Proof. exact call_misfit. Qed.
  (** A function call expression evaluates its arguments, then calls. *)
  Theorem C30_args_split : forall fd args pos var, args = pos ++ var -> length pos = length (fd_params fd) ->
    positional_args (FArgs args (length (fd_params fd))) = pos /\
    variadic_args (FArgs args (length (fd_params fd))) = var.
  Proof.
    intros fd args pos var -> L. unfold positional_args, variadic_args. cbn [fa_values fa_pos_len].
    rewrite <- L. split; [rewrite firstn_app, Nat.sub_diag, firstn_all, app_nil_r|rewrite skipn_app, Nat.sub_diag, skipn_all]; reflexivity.
  Qed.
  Example C30_example :
    let fd := FuncDef (fun a => inl (VArr (variadic_args a))) [PString; PNullable (PArray PNumber)] (Some (POneOf [PBool; PString])) in
    well_declared fd /\ fits fd [VStr []; VNull; VBool true] /\
    call_func fd [VStr []; VNull; VBool true] = inl (VArr [VBool true]) /\
    (exists a b, call_func fd [VStr []] = inr (CArity a b)) /\ ~ fits fd [VStr []].
  Proof.
    split; [|split; [|split; [|split]]].
    - split; cbn; intuition (try discriminate). repeat constructor; cbn; auto.
    - exists [VStr []; VNull], [VBool true]. split; [reflexivity|]. split.
      + constructor; [cbn; eauto|]. constructor; [cbn; auto|constructor].
      + constructor; [cbn; right; left; eauto|constructor].
    - vm_compute. reflexivity.
    - eexists _, _. vm_compute. reflexivity.
    - intros [p [v [E [H _]]]]. inversion H as [|? ? ? ? H1 H2]; subst. inversion H2 as [|? ? ? ? H3 H4]; subst. discriminate.
  Qed.
  (** The documentation says an empty [OneOf] is the same as [Any] (func.rs:28-31), but nothing
      satisfies it. *)
  Theorem C30_empty_alternatives_refuted :
    exists fd args, fits fd args /\ exists err, call_func fd args = inr err /\ forall m, err <> CUser m.
  Proof.
    exists (FuncDef (fun _ => inl VNull) [POneOf []] None), [VNull]. split.
    - exists [VNull], []. split; [reflexivity|]. split; [|reflexivity]. constructor; [left; reflexivity|constructor].
    - eexists. split; [vm_compute; reflexivity|]. discriminate.
  Qed.

  (** ** C31 *)
  Theorem C31_template_is_concatenation : forall n c t,
    eval_template show_value (eval n) c t = render show_value (eval n) c t.
  Proof. intros. apply template_render. Qed.
  (** What a strip marker removes, exactly. *)
  Theorem C31_strip_left : forall s s', strips_left s s' <-> s' = trim_start s.
  Proof.
    intros s s'. split; [intros H; exact (strips_left_det _ _ _ H (trim_start_spec s))|intros ->; apply trim_start_spec].
  Qed.
  Theorem C31_strip_right : forall s s', strips_right s s' <-> s' = trim_end s.
  Proof.
    intros s s'. split; [intros H; exact (strips_right_det _ _ _ H (trim_end_spec s))|intros ->; apply trim_end_spec].
  Qed.
  Theorem C31_single_interpolation : forall n c t e st, parse_tpl (tpl_text t) = Some [ElInterp e st] ->
    eval (S n) c (ETpl t) = eval n c e.
  Proof. intros n c t e st H. cbn [EvalModel.eval eval_expr]. unfold eval_tpl_text. rewrite H. reflexivity. Qed.
  Theorem C31_other_templates : forall n c t els, parse_tpl (tpl_text t) = Some els ->
    (forall e st, els <> [ElInterp e st]) ->
    eval (S n) c (ETpl t) = emap VStr (render show_value (eval n) c els).
  Proof.
    intros n c t els H1 H2. cbn [EvalModel.eval eval_expr]. unfold eval_tpl_text. rewrite H1, <- template_render.
    destruct els as [|[s|e st|? ? ? ? ? ?|? ? ? ? ? ?] [|x els]]; try reflexivity. destruct (H2 e st eq_refl).
  Qed.
  Example C31_example :
    let nl := 10%N in
    eval_template show_value (eval 0) (vars [(lit "x", VStr (lit "v"))])
      [ElLit (lit "a  " ++ nl :: lit "  "); ElInterp (EVar (lit "x")) StripStart; ElLit (lit " b ");
       ElIf (EBool true) [ElLit (lit "  " ++ [nl; nl] ++ lit "yes ")] None StripEnd StripNone StripStart; ElLit (lit " .")]
    = Ok (lit "a  v b " ++ nl :: lit "yes .").
  Proof. vm_compute. reflexivity. Qed.

  (** ** C32 *)

  (** A panic can only come from an arithmetic operator that occurs in the expression. *)
  Theorem C32_panics_only_in_arithmetic_partial : forall n c e, wf_ctx c ->
    eval n c e = Fail FPanic -> exists o, op_occurs parse_tpl o n e /\ op_panics bd o.
  Proof. intros n c e. apply eval_panic. Qed.
  Example C32_example :
    let e := EBinary (EVar (lit "x")) OpEq (ETrav (EVar (lit "x")) [FullSplat]) in
    (forall o, op_occurs parse_tpl o 0 e -> ~ op_panics bd o).
  Proof. cbn. intros o [->|[[]|[[]|[[]|[]]]]] []. Qed.

  (** ** C33 *)
  Theorem C33_evaluated_bodies_are_literal : forall n c b b', wf_ctx c -> eval_body n c b = Ok b' ->
    Forall2 literal_skeleton b b' /\
    (forall m c', eval_body m c' b' = Ok b') /\
    (forall m c', in_place_body m c' b' = (b', [])).
  Proof. intros n c b b'. apply eval_body_literal. Qed.
  (** Also after evaluation in place (under the condition of C25). *)
  Theorem C33_evaluated_in_place_partial : forall n c b b', wf_ctx c ->
    Forall (no_merge_struct (simp bd parse_tpl show_value show_num n c)) b ->
    in_place_body n c b = (b', []) ->
    Forall2 literal_skeleton b b' /\
    (forall m c', eval_body m c' b' = Ok b') /\
    (forall m c', in_place_body m c' b' = (b', [])).
  Proof. intros n c b b' W M H. eapply eval_body_literal; [exact W|]. apply in_place_body_ok; eauto. Qed.
  Example C33_example :
    let c := vars [(lit "x", VObj [(lit "a", VNull)])] in
    eval_body 0 c [SBlk (lit "b") [BLString (lit "l")] [SAttribute (lit "k") (EVar (lit "x"))]] =
    Ok [SBlk (lit "b") [BLString (lit "l")] [SAttribute (lit "k") (EObj [(KExpr (EStr (lit "a")), ENull)])]].
  Proof. vm_compute. reflexivity. Qed.

  (** ** C41 *)

  (** More declarations never change the outcome of a successful evaluation. *)
  Theorem C41_more_declarations : forall n c c' e v, extends c c' -> eval n c e = Ok v -> eval n c' e = Ok v.
  Proof. intros n c c' e v. apply eval_extends. reflexivity. Qed.
  (** The bound on template nesting does not matter unless it is reached. *)
  Theorem C41_nesting_bound : forall n m c e, n <= m -> eval n c e <> Fail FFuel -> eval m c e = eval n c e.
  Proof. intros n m c e. apply eval_fuel. Qed.
  (** An empty child scope changes nothing. *)
  Theorem C41_empty_scope : forall n c e, eval n (child c) e = eval n c e.
  Proof. intros n c e. apply eval_empty_child. Qed.
  Example C41_example :
    extends (vars [(lit "x", VNull)]) (vars [(lit "y", VNull); (lit "x", VNull)]) /\
    ~ extends (vars [(lit "x", VNull)]) (vars [(lit "x", VBool true)]).
  Proof.
    split.
    - split; [|discriminate]. intros x v. cbn [ctx_var vars sc_vars]. unfold MapModel.get. cbn [MapModel.get_key_value].
      destruct (seqb x (lit "x")) eqn:E; [|discriminate]. apply seqb_eq in E. subst. auto.
    - intros [H _]. specialize (H (lit "x") VNull eq_refl). discriminate H.
  Qed.
  Example C41_nesting_example : eval 0 [] (EArr [ENull]) <> Fail FFuel /\ forall s, eval 0 [] (ETpl (QuotedString s)) = Fail FFuel.
  Proof. split; [discriminate|reflexivity]. Qed.
End Props.

(** [1 % 0] panics in every build. *)
Theorem C32_modulo_zero_refuted : forall bd parse_tpl show_value show_num,
  eval bd parse_tpl show_value show_num 0 [] (EBinary (ENum (PosInt 1)) OpMod (ENum (PosInt 0))) = Fail FPanic.
Proof. intros [] ? ? ?; vm_compute; reflexivity. Qed.
(** In release builds remainder is the only operator that panics, on a zero divisor or for
    [i64::MIN % -1]. *)
Theorem C32_release_builds_partial : forall parse_tpl show_value show_num n c e, wf_ctx c ->
  eval Release parse_tpl show_value show_num n c e = Fail FPanic -> op_occurs parse_tpl (inr OpMod) n e.
Proof.
  intros p sv sn n c e W H. destruct (eval_panic _ _ _ _ _ _ _ W H) as [o [H1 H2]].
  rewrite <- (release_ops o H2). exact H1.
Qed.
Theorem C32_remainder_panics : forall x y, num_rem Release x y = Panic ->
  y = PosInt 0 \/ y = NegInt 0 \/ (x = NegInt (- 2 ^ 63) /\ y = NegInt (-1)).
Proof. exact num_rem_panic. Qed.

Print Assumptions C24_literals_evaluate_to_themselves.
Print Assumptions C24_values_through_expressions.
Print Assumptions C25_in_place_is_evaluate_partial.
Print Assumptions C25_in_place_plain_keys.
Print Assumptions C25_body_in_place_is_evaluate_partial.
Print Assumptions C25_equal_keys_refuted.
Print Assumptions C25_in_place_may_fail_refuted.
Print Assumptions C26_partial_evaluation_sound_partial.
Print Assumptions C26_partial_evaluation_plain_keys.
Print Assumptions C26_partial_body_sound_partial.
Print Assumptions C26_partial_template_sound_partial.
Print Assumptions C26_loop_variable_refuted.
Print Assumptions C27_innermost_declaration.
Print Assumptions C27_variable.
Print Assumptions C27_only_free_variables_matter.
Print Assumptions C27_loop_variable_shadows.
Print Assumptions C28_for_array.
Print Assumptions C28_for_object.
Print Assumptions C28_body_scope.
Print Assumptions C29_full_splat.
Print Assumptions C29_attr_splat.
Print Assumptions C29_one_step.
Print Assumptions C29_index_in_bounds_or_error.
Print Assumptions C29_index_expr_in_bounds_or_error.
Print Assumptions C30_fitting_call_runs_the_body_partial.
Print Assumptions C30_misfit_is_an_error.
Print Assumptions C30_args_split.
Print Assumptions C30_empty_alternatives_refuted.
Print Assumptions C31_template_is_concatenation.
Print Assumptions C31_strip_left.
Print Assumptions C31_strip_right.
Print Assumptions C31_single_interpolation.
Print Assumptions C31_other_templates.
Print Assumptions C32_panics_only_in_arithmetic_partial.
Print Assumptions C32_modulo_zero_refuted.
Print Assumptions C32_release_builds_partial.
Print Assumptions C32_remainder_panics.
Print Assumptions C33_evaluated_bodies_are_literal.
Print Assumptions C33_evaluated_in_place_partial.
Print Assumptions C41_more_declarations.
Print Assumptions C41_nesting_bound.
Print Assumptions C41_empty_scope.
